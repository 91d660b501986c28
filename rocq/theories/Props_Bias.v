(** * C111: what the estimates estimate *)
From Coq Require Import Reals ZArith String List Lia Lra Psatz Arith Bool.
From Verif Require Import Num Numpy PyVal LinalgModel StateModel BaseModel Estimators RegistryModel Spec ListLemmas BaseProofs
  RMat LinSpec Fin RealSpec RunFin EwaReal RunAvg EmpFacts Props_Emp ShrinkReal Props_Shrink FloatEwa.
Import ListNotations.
Local Open Scope string_scope.
Local Open Scope R_scope.

(** ** The specification: finitely many outcomes with weights *)
Definition expect {Om} (oms : list Om) (w : Om -> R) (f : Om -> R) : R := lsum (map (fun o => w o * f o) oms).
Definition probability {Om} (oms : list Om) (w : Om -> R) : Prop := (forall o, In o oms -> 0 <= w o) /\ expect oms w (fun _ => 1) = 1.
(** n random rows with a common mean and covariance, uncorrelated across time (they need not be independent) *)
Definition white_noise {Om} (p n : nat) (oms : list Om) (w : Om -> R) (X : nat -> Om -> obs) (mu : obs) (Sig : rmat) : Prop :=
  (forall t i, (t < n)%nat -> (i < p)%nat -> expect oms w (fun o => X t o i) = mu i) /\
  (forall s t i j, (s < n)%nat -> (t < n)%nat -> (i < p)%nat -> (j < p)%nat ->
     expect oms w (fun o => (X s o i - mu i) * (X t o j - mu j)) = if Nat.eqb s t then Sig i j else 0).
Definition draw {Om} (X : nat -> Om -> obs) (n : nat) (o : Om) : list obs := map (fun t => X t o) (seq 0 n).
(** variance of the weighted mean after n rows, in units of Sig: 1/n during the burn-in of nb rows, then towards r/(2-r) *)
Definition noise (r : R) (nb n : nat) : R :=
  if Nat.leb n nb then / INR n else r / (2 - r) + (1 - r) ^ (2 * (n - nb)) * (/ INR nb - r / (2 - r)).
(** expected covariance after n rows, in units of Sig: (n-1)/n during the burn-in, then towards 2/(2-r) *)
Definition bias (r : R) (nb n : nat) : R :=
  if Nat.leb n nb then 1 - / INR n
  else let k := (n - nb)%nat in
    2 / (2 - r) + (1 - r) ^ k * (1 - / INR nb - 2 / (2 - r)) + (/ INR nb - r / (2 - r)) * ((1 - r) ^ (k - 1) * (1 - (1 - r) ^ k)).

(** ** Expectation is linear *)
Section Expect.
  Context {Om : Type} (oms : list Om) (w : Om -> R).
  Notation E := (expect oms w).
  Lemma E_ext f g : (forall o, f o = g o) -> E f = E g.
  Proof. intros H. apply lsum_map_ext. intros o _. now rewrite H. Qed.
  Lemma E_plus f g : E (fun o => f o + g o) = E f + E g.
  Proof. unfold expect. rewrite <- lsum_map_plus. apply lsum_map_ext. intros; ring. Qed.
  Lemma E_scal c f : E (fun o => c * f o) = c * E f.
  Proof. unfold expect. rewrite <- lsum_map_scal. apply lsum_map_ext. intros; ring. Qed.
  Lemma E_const c : E (fun _ => 1) = 1 -> E (fun _ => c) = c.
  Proof. intros H. rewrite (E_ext _ (fun _ => c * 1)) by (intros; ring). rewrite E_scal, H. ring. Qed.
End Expect.
Lemma draw_S {Om} (X : nat -> Om -> obs) n o : draw X (S n) o = (draw X n o ++ [X n o])%list.
Proof. unfold draw. rewrite seq_S, map_app. reflexivity. Qed.
Lemma draw_length {Om} (X : nat -> Om -> obs) n o : length (draw X n o) = n.
Proof. unfold draw. now rewrite map_length, seq_length. Qed.

(** ** The moments along the recursion *)
Definition rate_at (r : R) (nb n : nat) : R := if Nat.ltb n nb then / INR (S n) else r.
Definition gain_at (r : R) (nb n : nat) : R := if Nat.ltb n nb then / INR (S n) * (1 - / INR (S n)) else r.
Lemma mean_gain r nb xs x i : ewa_mean r nb (xs ++ [x]) i = (1 - rate_at r nb (length xs)) * ewa_mean r nb xs i + rate_at r nb (length xs) * x i.
Proof. rewrite ewa_step_eq. unfold rate_at. destruct (Nat.ltb _ _); [|reflexivity]. unfold Rdiv. ring. Qed.
Lemma cov_gain r nb xs x i j : ewa_cov r nb (xs ++ [x]) i j =
  (1 - rate_at r nb (length xs)) * ewa_cov r nb xs i j + gain_at r nb (length xs) * ((x i - ewa_mean r nb xs i) * (x j - ewa_mean r nb xs j)).
Proof.
  rewrite ewa_cov_step. cbv zeta. unfold rate_at, gain_at. destruct (Nat.ltb _ _); [|reflexivity]. pose proof (INR_S_nz (length xs)) as N.
  rewrite S_INR in *. unfold Rdiv. replace (INR (length xs) * / (INR (length xs) + 1)) with (1 - / (INR (length xs) + 1)) by (field; exact N).
  rewrite (Rmult_assoc _ (INR (length xs))). replace (INR (length xs) * / (INR (length xs) + 1)) with (1 - / (INR (length xs) + 1)) by (field; exact N). ring.
Qed.
Lemma noise_S r nb n : 0 < r <= 1 -> (1 <= nb)%nat -> (1 <= n)%nat -> noise r nb (S n) = (1 - rate_at r nb n) ^ 2 * noise r nb n + rate_at r nb n ^ 2.
Proof.
  intros Hr Hb Hn. unfold noise, rate_at. assert (N0 : INR n <> 0) by (apply not_0_INR; lia). pose proof (INR_S_nz n) as N1.
  destruct (Nat.ltb_spec n nb) as [H|H].
  - rewrite (proj2 (Nat.leb_le (S n) nb)), (proj2 (Nat.leb_le n nb)) by lia. rewrite S_INR in *. field. auto.
  - rewrite (proj2 (Nat.leb_gt (S n) nb)) by lia. destruct (Nat.leb_spec n nb) as [H2|H2].
    + assert (n = nb) as -> by lia. replace (2 * (S nb - nb))%nat with 2%nat by lia. field; repeat split; solve [assumption | lra | apply not_0_INR; lia].
    + replace (2 * (S n - nb))%nat with (2 + 2 * (n - nb))%nat by lia. rewrite pow_add. set (q := (1 - r) ^ (2 * (n - nb))). field; repeat split; solve [assumption | lra | apply not_0_INR; lia].
Qed.
Lemma bias_S r nb n : 0 < r <= 1 -> (1 <= nb)%nat -> (1 <= n)%nat -> bias r nb (S n) = (1 - rate_at r nb n) * bias r nb n + gain_at r nb n * (1 + noise r nb n).
Proof.
  intros Hr Hb Hn. unfold bias, noise, rate_at, gain_at. assert (N0 : INR n <> 0) by (apply not_0_INR; lia). pose proof (INR_S_nz n) as N1. cbv zeta.
  destruct (Nat.ltb_spec n nb) as [H|H].
  - rewrite (proj2 (Nat.leb_le (S n) nb)), (proj2 (Nat.leb_le n nb)) by lia. rewrite S_INR in *. field. auto.
  - rewrite (proj2 (Nat.leb_gt (S n) nb)) by lia. destruct (Nat.leb_spec n nb) as [H2|H2].
    + assert (n = nb) as -> by lia. replace (S nb - nb)%nat with 1%nat by lia. cbn [Nat.sub]. rewrite pow_O, pow_1. field; repeat split; solve [assumption | lra | apply not_0_INR; lia].
    + destruct (n - nb)%nat as [|k] eqn:Ek; [lia|]. replace (S n - nb)%nat with (S (S k)) by lia. cbn [Nat.sub]. rewrite Nat.sub_0_r.
      replace (2 * S k)%nat with (S k + S k)%nat by lia. rewrite pow_add. cbn [pow]. set (q := (1 - r) ^ k). field; repeat split; solve [assumption | lra | apply not_0_INR; lia].
Qed.
Section Moments.
  Context {Om : Type} (oms : list Om) (w : Om -> R) (p N : nat) (X : nat -> Om -> obs) (mu : obs) (Sig : rmat).
  Context (HP : probability oms w) (HW : white_noise p N oms w X mu Sig) (r : R) (nb : nat) (Hr : 0 < r <= 1) (Hb : (1 <= nb)%nat).
  Notation E := (expect oms w).
  Notation M n o := (ewa_mean r nb (draw X n o)).
  Notation V n o := (ewa_cov r nb (draw X n o)).
  Lemma moments n : (1 <= n <= N)%nat ->
    (forall i, (i < p)%nat -> E (fun o => M n o i) = mu i) /\
    (forall t i j, (n <= t < N)%nat -> (i < p)%nat -> (j < p)%nat -> E (fun o => (M n o i - mu i) * (X t o j - mu j)) = 0) /\
    (forall i j, (i < p)%nat -> (j < p)%nat -> E (fun o => (M n o i - mu i) * (M n o j - mu j)) = noise r nb n * Sig i j) /\
    (forall i j, (i < p)%nat -> (j < p)%nat -> E (fun o => V n o i j) = bias r nb n * Sig i j).
  Proof.
    destruct HW as [W1 W2]. induction n as [|n IH]; [lia|]. intros Hn. destruct (Nat.eq_dec n 0) as [->|Hn0].
    - assert (M1 : forall o i, M 1 o i = X 0%nat o i).
      { intros o i. rewrite draw_S, ewa_step_eq. cbn [draw seq map length]. destruct (Nat.ltb_spec 0 nb); [|lia]. unfold ewa_mean, burn, after. cbn [draw seq map]. rewrite firstn_nil, skipn_nil, ewm_nil, mean_nil. cbn [INR]. field. }
      assert (V1 : forall o i j, V 1 o i j = 0).
      { intros o i j. rewrite draw_S, ewa_cov_step. cbv zeta. cbn [draw seq map length]. destruct (Nat.ltb_spec 0 nb); [|lia]. unfold ewa_mean, ewa_cov, burn, after. rewrite firstn_nil, skipn_nil, !ewm_nil, !mean_nil, ewc_nil, pcov_nil. cbn [INR]. field. }
      unfold noise, bias. rewrite (proj2 (Nat.leb_le 1 nb)) by lia. cbn [INR]. rewrite Rinv_1. split; [|split; [|split]].
      + intros i Hi. rewrite (E_ext oms w _ (fun o => X 0%nat o i)) by (intros; apply M1). now apply W1.
      + intros t i j Ht Hi Hj. rewrite (E_ext oms w _ (fun o => (X 0%nat o i - mu i) * (X t o j - mu j))) by (intros; now rewrite M1). rewrite W2 by lia. destruct (Nat.eqb_spec 0 t); [lia|reflexivity].
      + intros i j Hi Hj. rewrite (E_ext oms w _ (fun o => (X 0%nat o i - mu i) * (X 0%nat o j - mu j))) by (intros; now rewrite !M1). rewrite W2 by lia. cbn [Nat.eqb]. ring.
      + intros i j Hi Hj. rewrite (E_ext oms w _ (fun o => 0 * 0)) by (intros; rewrite V1; ring). rewrite E_scal. ring.
    - destruct (IH ltac:(lia)) as (I1 & I2 & I3 & I4). rewrite noise_S, bias_S by (auto; lia). set (a := rate_at r nb n) in *. set (g := gain_at r nb n) in *.
      assert (MS : forall o i, M (S n) o i = (1 - a) * M n o i + a * X n o i) by (intros; rewrite draw_S, mean_gain, draw_length; reflexivity).
      assert (VS : forall o i j, V (S n) o i j = (1 - a) * V n o i j + g * ((X n o i - M n o i) * (X n o j - M n o j))) by (intros; rewrite draw_S, cov_gain, draw_length; reflexivity).
      assert (I2' : forall i j, (i < p)%nat -> (j < p)%nat -> E (fun o => (X n o i - mu i) * (M n o j - mu j)) = 0).
      { intros i j Hi Hj. rewrite <- (I2 n j i ltac:(lia) Hj Hi). apply E_ext. intros; ring. }
      split; [|split; [|split]].
      + intros i Hi. rewrite (E_ext oms w _ (fun o => (1 - a) * M n o i + a * X n o i)) by (intros; apply MS). rewrite E_plus, !E_scal, I1, W1 by (auto; lia). ring.
      + intros t i j Ht Hi Hj. rewrite (E_ext oms w _ (fun o => (1 - a) * ((M n o i - mu i) * (X t o j - mu j)) + a * ((X n o i - mu i) * (X t o j - mu j)))) by (intros; rewrite MS; ring).
        rewrite E_plus, !E_scal, I2, W2 by (auto; lia). destruct (Nat.eqb_spec n t); [lia|ring].
      + intros i j Hi Hj. rewrite (E_ext oms w _ (fun o => ((1 - a) ^ 2 * ((M n o i - mu i) * (M n o j - mu j)) + a ^ 2 * ((X n o i - mu i) * (X n o j - mu j)))
            + ((1 - a) * a * ((M n o i - mu i) * (X n o j - mu j)) + (1 - a) * a * ((X n o i - mu i) * (M n o j - mu j))))) by (intros; rewrite !MS; ring).
        rewrite !E_plus, !E_scal, I3, I2, I2', W2 by (auto; lia). rewrite Nat.eqb_refl. ring.
      + intros i j Hi Hj. rewrite (E_ext oms w _ (fun o => (1 - a) * V n o i j + ((g * ((X n o i - mu i) * (X n o j - mu j)) + g * ((M n o i - mu i) * (M n o j - mu j)))
            + (- g * ((M n o i - mu i) * (X n o j - mu j)) + - g * ((X n o i - mu i) * (M n o j - mu j)))))) by (intros; rewrite VS; ring).
        rewrite !E_plus, !E_scal, I4, I3, I2, I2', W2 by (auto; lia). rewrite Nat.eqb_refl. ring.
  Qed.
End Moments.
(** ** C111 *)
(** EwaCovariance of white noise: location_ is unbiased, its covariance is [noise] times the true covariance, and the expected covariance_ is [bias] times the true one. *)
Theorem C111_ewa {Om} (oms : list Om) w p N X mu Sig r diff (rows : Om -> list (vec NumX)) n : 0 < r <= 1 ->
  probability oms w -> white_noise p N oms w X mu Sig -> (1 <= n <= N)%nat -> (forall o, observes p diff (rows o) (draw X n o)) ->
  exists (M : Om -> obs) (V : Om -> rmat),
    (forall o, exists e, fitted_on (C := Ewa) (EWA r diff) (rows o) e /\ location_ e = Ok (fv p (M o)) /\ covariance_ e = Ok (fm p p (V o))) /\
    (forall i, (i < p)%nat -> expect oms w (fun o => M o i) = mu i) /\
    (forall i j, (i < p)%nat -> (j < p)%nat -> expect oms w (fun o => (M o i - mu i) * (M o j - mu j)) = noise r (burn_len r) n * Sig i j) /\
    (forall i j, (i < p)%nat -> (j < p)%nat -> expect oms w (fun o => V o i j) = bias r (burn_len r) n * Sig i j).
Proof.
  intros Hr HP HW Hn Ho. pose proof (burn_len_bounds r) as Hb. destruct (moments oms w p N X mu Sig HW r (burn_len r) Hr ltac:(lia) n Hn) as (A1 & _ & A3 & A4).
  exists (fun o => ewa_mean r (burn_len r) (draw X n o)), (fun o => ewa_cov r (burn_len r) (draw X n o)). split; [|split; [exact A1|split; [exact A3|exact A4]]].
  intros o. assert (Hx : draw X n o <> []) by (intros E; pose proof (draw_length X n o) as L; rewrite E in L; cbn in L; lia).
  destruct (Ewa_run p r diff (rows o) (draw X n o) ltac:(lra) (Ho o) Hx) as (e & E1 & _ & E3 & E4 & _). exists e. auto.
Qed.
(** EmpiricalCovariance of white noise: location_ is unbiased with covariance Sig/n, and covariance_ is the biased (divide by n) estimate. *)
Theorem C111_empirical {Om} (oms : list Om) w p N X mu Sig diff (rows : Om -> list (vec NumX)) n :
  probability oms w -> white_noise p N oms w X mu Sig -> (1 <= n <= N)%nat -> (forall o, observes p diff (rows o) (draw X n o)) ->
  exists (M : Om -> obs) (V : Om -> rmat),
    (forall o, exists e, fitted_on (C := Empirical) (mkEmpP diff) (rows o) e /\ location_ e = Ok (fv p (M o)) /\ covariance_ e = Ok (fm p p (V o))) /\
    (forall i, (i < p)%nat -> expect oms w (fun o => M o i) = mu i) /\
    (forall i j, (i < p)%nat -> (j < p)%nat -> expect oms w (fun o => (M o i - mu i) * (M o j - mu j)) = Sig i j / INR n) /\
    (forall i j, (i < p)%nat -> (j < p)%nat -> expect oms w (fun o => V o i j) = (INR n - 1) / INR n * Sig i j).
Proof.
  intros HP HW Hn Ho. destruct (moments oms w p N X mu Sig HW 1 N ltac:(lra) ltac:(lia) n Hn) as (A1 & _ & A3 & A4). assert (N0 : INR n <> 0) by (apply not_0_INR; lia).
  assert (EM : forall o i, ewa_mean 1 N (draw X n o) i = mean_of (draw X n o) i) by (intros; apply ewa_mean_burning; rewrite draw_length; lia).
  assert (EV : forall o i j, ewa_cov 1 N (draw X n o) i j = pcov_of (draw X n o) i j) by (intros; apply ewa_cov_burning; rewrite draw_length; lia).
  exists (fun o => mean_of (draw X n o)), (fun o => pcov_of (draw X n o)). split; [|split; [|split]].
  - intros o. assert (Hx : draw X n o <> []) by (intros E; pose proof (draw_length X n o) as L; rewrite E in L; cbn in L; lia).
    destruct (Empirical_run p diff (rows o) (draw X n o) (Ho o) Hx) as (e & E1 & _ & E3 & E4 & _). exists e. auto.
  - intros i Hi. rewrite <- (A1 i Hi). apply E_ext. intros; symmetry; apply EM.
  - intros i j Hi Hj. transitivity (noise 1 N n * Sig i j); [rewrite <- (A3 i j Hi Hj); apply E_ext; intros; now rewrite !EM|]. unfold noise. rewrite (proj2 (Nat.leb_le n N)) by lia. field. exact N0.
  - intros i j Hi Hj. transitivity (bias 1 N n * Sig i j); [rewrite <- (A4 i j Hi Hj); apply E_ext; intros; now rewrite EV|]. unfold bias. rewrite (proj2 (Nat.leb_le n N)) by lia. field. exact N0.
Qed.
(** ShrunkCovariance with identity target: the expected estimate is [bias] times the true covariance shrunk by the same intensity. *)
Theorem C111_shrunk_identity {Om} (oms : list Om) w p N X mu Sig r delta diff (rows : Om -> list (vec NumX)) n : (1 <= p)%nat -> 0 < r <= 1 ->
  probability oms w -> white_noise p N oms w X mu Sig -> (1 <= n <= N)%nat -> (forall o, observes p diff (rows o) (draw X n o)) ->
  exists (V : Om -> rmat),
    (forall o, exists e, fitted_on (C := Shrunk) (SHR r delta "identity" diff) (rows o) e /\ covariance_ e = Ok (fm p p (V o))) /\
    (forall i j, (i < p)%nat -> (j < p)%nat -> expect oms w (fun o => V o i j) =
       bias r (burn_len r) n * ((1 - delta) * Sig i j + delta * (rtrace p Sig / INR p) * rI i j)).
Proof.
  intros Hp Hr HP HW Hn Ho. pose proof (burn_len_bounds r) as Hb. destruct (moments oms w p N X mu Sig HW r (burn_len r) Hr ltac:(lia) n Hn) as (_ & _ & _ & A4). set (nb := burn_len r) in *.
  exists (fun o => shrinkI p delta (ewa_cov r nb (draw X n o))). split.
  - intros o. assert (Hx : draw X n o <> []) by (intros E; pose proof (draw_length X n o) as L; rewrite E in L; cbn in L; lia).
    destruct (Shrunk_identity_run p r delta diff (rows o) (draw X n o) Hp ltac:(lra) (Ho o) Hx) as (e & E1 & _ & _ & E4 & _). exists e. auto.
  - intros i j Hi Hj. assert (P0 : INR p <> 0) by (apply not_0_INR; lia).
    assert (T : expect oms w (fun o => rtrace p (ewa_cov r nb (draw X n o))) = bias r nb n * rtrace p Sig).
    { unfold rtrace at 2. rewrite <- rsum_scal. rewrite (rsum_ext p (fun i => bias r nb n * Sig i i) (fun i => expect oms w (fun o => ewa_cov r nb (draw X n o) i i))) by (intros; symmetry; apply A4; auto).
      unfold rtrace. generalize (fun i o => ewa_cov r nb (draw X n o) i i). intros g. clear. induction p as [|q IH].
      - cbn [rsum]. rewrite (E_ext oms w _ (fun _ => 0 * 0)) by (intros; ring). rewrite E_scal. ring.
      - cbn [rsum]. rewrite E_plus, IH. reflexivity. }
    rewrite (E_ext oms w _ (fun o => (1 - delta) * ewa_cov r nb (draw X n o) i j + (delta * rI i j / INR p) * rtrace p (ewa_cov r nb (draw X n o)))) by (intros; unfold shrinkI; field; exact P0).
    rewrite E_plus, !E_scal, A4, T by auto. field. exact P0.
Qed.
(** the limits: the exponentially weighted mean never settles (its covariance tends to r/(2-r) times the truth) and covariance_ overstates by the factor 2/(2-r) *)
Lemma prod_le1 a b : 0 <= a <= 1 -> 0 <= b <= 1 -> 0 <= a * b <= 1.
Proof. intros Ha Hb. split; [apply Rmult_le_pos; lra|]. apply Rle_trans with (1 * 1); [apply Rmult_le_compat; lra|lra]. Qed.
Lemma pow_cv r nb (f : nat -> R) l c : 0 < r <= 1 -> 0 < c -> (forall n, (nb < n)%nat -> Rabs (f n - l) <= c * (1 - r) ^ (n - nb - 1)) -> Un_cv f l.
Proof.
  intros Hr Hc H e He. destruct (pow_lt_1_zero (1 - r) ltac:(rewrite Rabs_right by lra; lra) (e / c) ltac:(now apply Rdiv_lt_0_compat)) as (k & K).
  exists (S (nb + k)). intros n Hn. unfold R_dist. eapply Rle_lt_trans; [apply H; lia|]. specialize (K (n - nb - 1)%nat ltac:(lia)). rewrite Rabs_right in K by (apply Rle_ge, pow_le; lra).
  apply Rmult_lt_reg_l with (/ c); [now apply Rinv_0_lt_compat|]. rewrite <- Rmult_assoc, Rinv_l, Rmult_1_l by lra. unfold Rdiv in K. lra.
Qed.
Theorem C111_limits r nb : 0 < r <= 1 -> (1 <= nb)%nat -> Un_cv (noise r nb) (r / (2 - r)) /\ Un_cv (bias r nb) (2 / (2 - r)) /\ 1 < 2 / (2 - r).
Proof.
  intros Hr Hb. assert (B0 : 0 < / INR nb <= 1). { assert (1 <= INR nb) by (replace 1 with (INR 1) by reflexivity; now apply le_INR). split; [apply Rinv_0_lt_compat; lra|]. rewrite <- Rinv_1. apply Rinv_le_contravar; lra. }
  assert (R0 : 0 < r / (2 - r) <= 1). { split; [apply Rdiv_lt_0_compat; lra|]. apply Rmult_le_reg_r with (2 - r); [lra|]. unfold Rdiv. rewrite Rmult_assoc, Rinv_l by lra. lra. }
  assert (R1 : 2 / (2 - r) = 1 + r / (2 - r)) by (field; lra). split; [|split].
  - apply (pow_cv r nb _ _ 1 Hr ltac:(lra)). intros n Hn. unfold noise. rewrite (proj2 (Nat.leb_gt n nb)) by lia.
    replace (r / (2 - r) + (1 - r) ^ (2 * (n - nb)) * (/ INR nb - r / (2 - r)) - r / (2 - r)) with ((1 - r) ^ (2 * (n - nb)) * (/ INR nb - r / (2 - r))) by ring.
    replace (2 * (n - nb))%nat with ((n - nb - 1) + (n - nb + 1))%nat by lia. rewrite pow_add, Rmult_assoc, Rmult_comm, Rabs_mult. pose proof (pow_le (1 - r) (n - nb - 1) ltac:(lra)) as P.
    rewrite (Rabs_right ((1 - r) ^ (n - nb - 1))) by lra. apply Rmult_le_compat_r; [exact P|]. rewrite Rabs_mult. pose proof (pow_le (1 - r) (n - nb + 1) ltac:(lra)) as P1. pose proof (pow_incr (1 - r) 1 (n - nb + 1) ltac:(lra)) as P2. rewrite pow1 in P2.
    rewrite Rabs_right by lra. assert (Rabs (/ INR nb - r / (2 - r)) <= 1) by (apply Rabs_le; lra). pose proof (Rabs_pos (/ INR nb - r / (2 - r))). apply prod_le1; lra.
  - apply (pow_cv r nb _ _ 4 Hr ltac:(lra)). intros n Hn. unfold bias. rewrite (proj2 (Nat.leb_gt n nb)) by lia. cbv zeta. destruct (n - nb)%nat as [|k] eqn:Ek; [lia|]. replace (S k - 1)%nat with k by lia. rewrite R1.
    cbn [pow]. set (q := (1 - r) ^ k). assert (Q : 0 <= q) by (apply pow_le; lra). pose proof (pow_incr (1 - r) 1 k ltac:(lra)) as Q1. rewrite pow1 in Q1. fold q in Q1.
    set (a := r / (2 - r)) in *. set (b := / INR nb) in *. clearbody a b q.
    replace (1 + a + (1 - r) * q * (1 - b - (1 + a)) + (b - a) * (q * (1 - (1 - r) * q)) - (1 + a)) with (((1 - r) * (- b - a) + (b - a) * (1 - (1 - r) * q)) * q) by ring.
    rewrite Rabs_mult, (Rabs_right q) by lra. apply Rmult_le_compat_r; [exact Q|].
    assert (X1 : 0 <= (1 - r) * (b + a) <= 2) by (split; [apply Rmult_le_pos; lra|]; apply Rle_trans with (1 * 2); [apply Rmult_le_compat; lra|lra]).
    assert (X2 : 0 <= (1 - r) * q <= 1) by (apply prod_le1; lra).
    assert (X3 : Rabs ((b - a) * (1 - (1 - r) * q)) <= 1). { rewrite Rabs_mult. apply prod_le1; (split; [apply Rabs_pos|apply Rabs_le; lra]). }
    replace ((1 - r) * (- b - a)) with (- ((1 - r) * (b + a))) by ring. eapply Rle_trans; [apply Rabs_triang|]. rewrite Rabs_Ropp, Rabs_right by lra. lra.
  - lra.
Qed.
(** the premises are met: one of n variables is +-sqrt n and the others are 0, uniformly at random: uncorrelated across time, variance 1 *)
Definition coin (n : nat) : list (nat * R) := (map (fun t => (t, 1)) (seq 0 n) ++ map (fun t => (t, (-1))) (seq 0 n))%list.
Lemma lsum_seq n (f : nat -> R) : lsum (map f (seq 0 n)) = rsum n f.
Proof. induction n as [|n IH]; [reflexivity|]. rewrite seq_S, map_app, lsum_app, IH. cbn [map lsum rsum Nat.add]. ring. Qed.
Lemma coin_expect n (f : nat * R -> R) : expect (coin n) (fun _ => / (2 * INR n)) f = rsum n (fun t => / (2 * INR n) * (f (t, 1) + f (t, -1))).
Proof.
  unfold expect, coin. rewrite map_app, lsum_app, !map_map, <- lsum_map_plus, lsum_seq. apply rsum_ext. intros; ring.
Qed.
Example C111_witness n : (1 <= n)%nat ->
  probability (coin n) (fun _ => / (2 * INR n)) /\
  white_noise 2 n (coin n) (fun _ => / (2 * INR n)) (fun t o _ => if Nat.eqb (fst o) t then snd o * sqrt (INR n) else 0) (fun _ => 0) (fun _ _ => 1).
Proof.
  intros Hn. assert (N0 : 0 < INR n) by (apply lt_0_INR; lia). split.
  - split; [intros; left; apply Rinv_0_lt_compat; lra|]. rewrite coin_expect, rsum_const. field. lra.
  - split.
    + intros t i Ht _. rewrite coin_expect. apply rsum_zero. intros u _. cbn [fst snd]. destruct (Nat.eqb u t); ring.
    + intros s t i j Hs Ht _ _. rewrite coin_expect. cbn [fst snd]. destruct (Nat.eqb_spec s t) as [<-|D].
      * rewrite (rsum_ext n _ (fun u => if Nat.eqb u s then 1 else 0)).
        -- now rewrite (rsum_delta n s (fun _ => 1)).
        -- intros u _. destruct (Nat.eqb u s); [|ring]. pose proof (sqrt_sqrt (INR n) ltac:(lra)) as Q. set (q := sqrt (INR n)) in *. replace ((1 * q - 0) * (1 * q - 0)) with (q * q) by ring. replace ((-1 * q - 0) * (-1 * q - 0)) with (q * q) by ring. rewrite Q. field. lra.
      * apply rsum_zero. intros u _. destruct (Nat.eqb_spec u s), (Nat.eqb_spec u t); try lia; ring.
Qed.

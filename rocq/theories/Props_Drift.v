(** * C113: a moving mean *)
From Coq Require Import Reals ZArith String List Lia Lra Psatz Arith Bool.
From Verif Require Import Num Numpy PyVal LinalgModel StateModel BaseModel Estimators RegistryModel Spec ListLemmas BaseProofs
  RMat LinSpec Fin RealSpec RunFin EwaReal RunAvg EmpFacts Props_Emp ShrinkReal Props_Shrink FloatEwa Props_Bias Props_Consistency.
Import ListNotations.
Local Open Scope string_scope.
Local Open Scope R_scope.

(** ** The specification: row t has mean [m t]; around it, a common covariance and no correlation across time *)
Definition around {Om} (p n : nat) (oms : list Om) (w : Om -> R) (X : nat -> Om -> obs) (m : nat -> obs) (Sig : rmat) : Prop :=
  (forall t i, (t < n)%nat -> (i < p)%nat -> expect oms w (fun o => X t o i) = m t i) /\
  (forall s t i j, (s < n)%nat -> (t < n)%nat -> (i < p)%nat -> (j < p)%nat ->
     expect oms w (fun o => (X s o i - m s i) * (X t o j - m t j)) = if Nat.eqb s t then Sig i j else 0).
(** the rows of means *)
Definition path (m : nat -> obs) (n : nat) : list obs := map m (seq 0 n).
Lemma path_S m n : path m (S n) = (path m n ++ [m n])%list.
Proof. unfold path. rewrite seq_S, map_app. reflexivity. Qed.
Lemma path_length m n : length (path m n) = n.
Proof. unfold path. now rewrite map_length, seq_length. Qed.
Lemma path_ne m n : (1 <= n)%nat -> path m n <> [].
Proof. intros Hn E. pose proof (path_length m n) as L. rewrite E in L. cbn in L. lia. Qed.

Section Drift.
  Context {Om : Type} (oms : list Om) (w : Om -> R) (p N : nat) (X : nat -> Om -> obs) (m : nat -> obs) (Sig : rmat).
  Context (HP : probability oms w) (HW : around p N oms w X m Sig) (r : R) (nb : nat) (Hr : 0 < r <= 1) (Hb : (1 <= nb)%nat).
  Notation E := (expect oms w).
  Notation M n o := (ewa_mean r nb (draw X n o)).
  Notation V n o := (ewa_cov r nb (draw X n o)).
  Notation M0 n := (ewa_mean r nb (path m n)).
  Notation V0 n := (ewa_cov r nb (path m n)).
  Lemma one_mean (Y : nat -> obs) i : ewa_mean r nb (path Y 1) i = Y 0%nat i.
  Proof. rewrite path_S, ewa_step_eq. cbn [path seq map length]. destruct (Nat.ltb_spec 0 nb); [|lia]. unfold ewa_mean, burn, after. cbn [path seq map]. rewrite firstn_nil, skipn_nil, ewm_nil, mean_nil. cbn [INR]. field. Qed.
  Lemma one_cov (Y : nat -> obs) i j : ewa_cov r nb (path Y 1) i j = 0.
  Proof. rewrite path_S, ewa_cov_step. cbv zeta. cbn [path seq map length]. destruct (Nat.ltb_spec 0 nb); [|lia]. unfold ewa_mean, ewa_cov, burn, after. cbn [path seq map]. rewrite firstn_nil, skipn_nil, !ewm_nil, !mean_nil, ewc_nil, pcov_nil. cbn [INR]. field. Qed.
  Lemma drift_moments n : (1 <= n <= N)%nat ->
    (forall i, (i < p)%nat -> E (fun o => M n o i) = M0 n i) /\
    (forall t i j, (n <= t < N)%nat -> (i < p)%nat -> (j < p)%nat -> E (fun o => (M n o i - M0 n i) * (X t o j - m t j)) = 0) /\
    (forall i j, (i < p)%nat -> (j < p)%nat -> E (fun o => (M n o i - M0 n i) * (M n o j - M0 n j)) = noise r nb n * Sig i j) /\
    (forall i j, (i < p)%nat -> (j < p)%nat -> E (fun o => V n o i j) = V0 n i j + bias r nb n * Sig i j).
  Proof.
    destruct HW as [W1 W2]. induction n as [|n IH]; [lia|]. intros Hn. destruct (Nat.eq_dec n 0) as [->|Hn0].
    - assert (M1 : forall o i, M 1 o i = X 0%nat o i) by (intros o i; exact (one_mean (fun t => X t o) i)).
      assert (V1 : forall o i j, V 1 o i j = 0) by (intros o i j; exact (one_cov (fun t => X t o) i j)).
      unfold noise, bias. rewrite (proj2 (Nat.leb_le 1 nb)) by lia. cbn [INR]. rewrite Rinv_1. split; [|split; [|split]].
      + intros i Hi. rewrite one_mean, (E_ext oms w _ (fun o => X 0%nat o i)) by (intros; apply M1). now apply W1.
      + intros t i j Ht Hi Hj. rewrite (E_ext oms w _ (fun o => (X 0%nat o i - m 0%nat i) * (X t o j - m t j))) by (intros; now rewrite M1, one_mean). rewrite W2 by lia. destruct (Nat.eqb_spec 0 t); [lia|reflexivity].
      + intros i j Hi Hj. rewrite (E_ext oms w _ (fun o => (X 0%nat o i - m 0%nat i) * (X 0%nat o j - m 0%nat j))) by (intros; now rewrite !M1, !one_mean). rewrite W2 by lia. cbn [Nat.eqb]. ring.
      + intros i j Hi Hj. rewrite (E_ext oms w _ (fun o => 0 * 0)) by (intros; rewrite V1; ring). rewrite E_scal, one_cov. ring.
    - destruct (IH ltac:(lia)) as (I1 & I2 & I3 & I4). rewrite noise_S, bias_S by (auto; lia). set (a := rate_at r nb n) in *. set (g := gain_at r nb n) in *.
      assert (MS : forall o i, M (S n) o i = (1 - a) * M n o i + a * X n o i) by (intros; rewrite draw_S, mean_gain, draw_length; reflexivity).
      assert (VS : forall o i j, V (S n) o i j = (1 - a) * V n o i j + g * ((X n o i - M n o i) * (X n o j - M n o j))) by (intros; rewrite draw_S, cov_gain, draw_length; reflexivity).
      assert (MS0 : forall i, M0 (S n) i = (1 - a) * M0 n i + a * m n i) by (intros; rewrite path_S, mean_gain, path_length; reflexivity).
      assert (VS0 : forall i j, V0 (S n) i j = (1 - a) * V0 n i j + g * ((m n i - M0 n i) * (m n j - M0 n j))) by (intros; rewrite path_S, cov_gain, path_length; reflexivity).
      assert (I2' : forall i j, (i < p)%nat -> (j < p)%nat -> E (fun o => (X n o i - m n i) * (M n o j - M0 n j)) = 0).
      { intros i j Hi Hj. rewrite <- (I2 n j i ltac:(lia) Hj Hi). apply E_ext. intros; ring. }
      assert (K1 : forall c i, (i < p)%nat -> E (fun o => c * (X n o i - m n i)) = 0).
      { intros c i Hi. rewrite E_scal. rewrite (E_ext oms w _ (fun o => X n o i + - m n i)) by (intros; ring). rewrite E_plus, W1, (E_const oms w _ (proj2 HP)) by (auto; lia). ring. }
      assert (K2 : forall c i, (i < p)%nat -> E (fun o => c * (M n o i - M0 n i)) = 0).
      { intros c i Hi. rewrite E_scal. rewrite (E_ext oms w _ (fun o => M n o i + - M0 n i)) by (intros; ring). rewrite E_plus, I1, (E_const oms w _ (proj2 HP)) by (auto; lia). ring. }
      split; [|split; [|split]].
      + intros i Hi. rewrite MS0, (E_ext oms w _ (fun o => (1 - a) * M n o i + a * X n o i)) by (intros; apply MS). rewrite E_plus, !E_scal, I1, W1 by (auto; lia). ring.
      + intros t i j Ht Hi Hj. rewrite (E_ext oms w _ (fun o => (1 - a) * ((M n o i - M0 n i) * (X t o j - m t j)) + a * ((X n o i - m n i) * (X t o j - m t j)))) by (intros; rewrite MS, MS0; ring).
        rewrite E_plus, !E_scal, I2, W2 by (auto; lia). destruct (Nat.eqb_spec n t); [lia|ring].
      + intros i j Hi Hj. rewrite (E_ext oms w _ (fun o => ((1 - a) ^ 2 * ((M n o i - M0 n i) * (M n o j - M0 n j)) + a ^ 2 * ((X n o i - m n i) * (X n o j - m n j)))
            + ((1 - a) * a * ((M n o i - M0 n i) * (X n o j - m n j)) + (1 - a) * a * ((X n o i - m n i) * (M n o j - M0 n j))))) by (intros; rewrite !MS, !MS0; ring).
        rewrite !E_plus, !E_scal, I3, I2, I2', W2 by (auto; lia). rewrite Nat.eqb_refl. ring.
      + intros i j Hi Hj. set (di := m n i - M0 n i). set (dj := m n j - M0 n j).
        rewrite (E_ext oms w _ (fun o => ((1 - a) * V n o i j + g * (di * dj))
            + ((((g * dj) * (X n o i - m n i) + (g * di) * (X n o j - m n j)) + ((- g * dj) * (M n o i - M0 n i) + (- g * di) * (M n o j - M0 n j)))
            + ((g * ((X n o i - m n i) * (X n o j - m n j)) + g * ((M n o i - M0 n i) * (M n o j - M0 n j)))
            + (- g * ((M n o i - M0 n i) * (X n o j - m n j)) + - g * ((X n o i - m n i) * (M n o j - M0 n j))))))) by (intros; rewrite VS; unfold di, dj; ring).
        rewrite !E_plus, !K1, !K2, !E_scal, (E_const oms w _ (proj2 HP)), I4, I3, I2, I2', W2 by (auto; lia). rewrite Nat.eqb_refl, VS0. unfold di, dj. ring.
  Qed.
End Drift.
Lemma Ok_inj {A} (a b : A) : Ok a = Ok b -> a = b. Proof. congruence. Qed.
(** ** C113 *)
(** EwaCovariance of a moving mean plus white noise: on average location_ is what the estimator gives on the means alone, and covariance_ is what it gives on the means alone
    (their movement, reported as covariance) plus [bias] times the covariance of the noise. *)
Theorem C113_ewa {Om} (oms : list Om) w p N X m Sig r diff (rows : Om -> list (vec NumX)) n : 0 < r <= 1 ->
  probability oms w -> around p N oms w X m Sig -> (1 <= n <= N)%nat -> (forall o, observes p diff (rows o) (draw X n o)) ->
  exists e0 M0 V0 (M : Om -> obs) (V : Om -> rmat),
    fitted_on (C := Ewa) (EWA r false) (map (fv p) (path m n)) e0 /\ location_ e0 = Ok (fv p M0) /\ covariance_ e0 = Ok (fm p p V0) /\
    (forall o, exists e, fitted_on (C := Ewa) (EWA r diff) (rows o) e /\ location_ e = Ok (fv p (M o)) /\ covariance_ e = Ok (fm p p (V o))) /\
    (forall i, (i < p)%nat -> expect oms w (fun o => M o i) = M0 i) /\
    (forall i j, (i < p)%nat -> (j < p)%nat -> expect oms w (fun o => (M o i - M0 i) * (M o j - M0 j)) = noise r (burn_len r) n * Sig i j) /\
    (forall i j, (i < p)%nat -> (j < p)%nat -> expect oms w (fun o => V o i j) = V0 i j + bias r (burn_len r) n * Sig i j).
Proof.
  intros Hr HP HW Hn Ho. pose proof (burn_len_bounds r) as Hb. destruct (drift_moments oms w p N X m Sig HP HW r (burn_len r) Hr ltac:(lia) n Hn) as (A1 & _ & A3 & A4).
  destruct (Ewa_run p r false (map (fv p) (path m n)) (path m n) ltac:(lra) (observes_plain p _) (path_ne m n ltac:(lia))) as (e0 & F1 & _ & F3 & F4 & _).
  exists e0, (ewa_mean r (burn_len r) (path m n)), (ewa_cov r (burn_len r) (path m n)), (fun o => ewa_mean r (burn_len r) (draw X n o)), (fun o => ewa_cov r (burn_len r) (draw X n o)).
  split; [exact F1|split; [exact F3|split; [exact F4|split; [|split; [exact A1|split; [exact A3|exact A4]]]]]].
  intros o. destruct (Ewa_run p r diff (rows o) (draw X n o) ltac:(lra) (Ho o) (path_ne (fun t => X t o) n ltac:(lia))) as (e & E1 & _ & E3 & E4 & _). exists e. auto.
Qed.
Theorem C113_empirical {Om} (oms : list Om) w p N X m Sig diff (rows : Om -> list (vec NumX)) n :
  probability oms w -> around p N oms w X m Sig -> (1 <= n <= N)%nat -> (forall o, observes p diff (rows o) (draw X n o)) ->
  exists e0 M0 V0 (M : Om -> obs) (V : Om -> rmat),
    fitted_on (C := Empirical) (mkEmpP false) (map (fv p) (path m n)) e0 /\ location_ e0 = Ok (fv p M0) /\ covariance_ e0 = Ok (fm p p V0) /\
    (forall o, exists e, fitted_on (C := Empirical) (mkEmpP diff) (rows o) e /\ location_ e = Ok (fv p (M o)) /\ covariance_ e = Ok (fm p p (V o))) /\
    (forall i, (i < p)%nat -> expect oms w (fun o => M o i) = M0 i) /\
    (forall i j, (i < p)%nat -> (j < p)%nat -> expect oms w (fun o => V o i j) = V0 i j + (INR n - 1) / INR n * Sig i j).
Proof.
  intros HP HW Hn Ho. destruct (drift_moments oms w p N X m Sig HP HW 1 N ltac:(lra) ltac:(lia) n Hn) as (A1 & _ & _ & A4). assert (N0 : INR n <> 0) by (apply not_0_INR; lia).
  assert (EM : forall xs i, length xs = n -> ewa_mean 1 N xs i = mean_of xs i) by (intros xs i L; apply ewa_mean_burning; lia).
  assert (EV : forall xs i j, length xs = n -> ewa_cov 1 N xs i j = pcov_of xs i j) by (intros xs i j L; apply ewa_cov_burning; lia).
  destruct (Empirical_run p false (map (fv p) (path m n)) (path m n) (observes_plain p _) (path_ne m n ltac:(lia))) as (e0 & F1 & _ & F3 & F4 & _).
  exists e0, (mean_of (path m n)), (pcov_of (path m n)), (fun o => mean_of (draw X n o)), (fun o => pcov_of (draw X n o)).
  split; [exact F1|split; [exact F3|split; [exact F4|split; [|split]]]].
  - intros o. destruct (Empirical_run p diff (rows o) (draw X n o) (Ho o) (path_ne (fun t => X t o) n ltac:(lia))) as (e & E1 & _ & E3 & E4 & _). exists e. auto.
  - intros i Hi. rewrite <- EM by apply path_length. rewrite <- (A1 i Hi). apply E_ext. intros; symmetry; apply EM, draw_length.
  - intros i j Hi Hj. rewrite <- EV by apply path_length. transitivity (ewa_cov 1 N (path m n) i j + bias 1 N n * Sig i j).
    + rewrite <- (A4 i j Hi Hj). apply E_ext. intros; symmetry; apply EV, draw_length.
    + unfold bias. rewrite (proj2 (Nat.leb_le n N)) by lia. f_equal. field. exact N0.
Qed.
(** a change of level from mu1 to mu2 before row T *)
Definition level_shift (T : nat) (mu1 mu2 : obs) (t : nat) : obs := if Nat.ltb t T then mu1 else mu2.
Lemma path_ext m m' n : (forall t, (t < n)%nat -> m t = m' t) -> path m n = path m' n.
Proof. intros H. unfold path. apply map_ext_in. intros t It. apply in_seq in It. apply H. lia. Qed.
Lemma flat r nb mu n : (1 <= nb)%nat -> (1 <= n)%nat -> forall i j, ewa_mean r nb (path (fun _ => mu) n) i = mu i /\ ewa_mean r nb (path (fun _ => mu) n) j = mu j /\ ewa_cov r nb (path (fun _ => mu) n) i j = 0.
Proof.
  intros Hb Hn i j. induction n as [|n IH]; [lia|]. destruct (Nat.eq_dec n 0) as [->|Hn0]; [rewrite !one_mean, one_cov by auto; auto|].
  destruct (IH ltac:(lia)) as (I1 & I2 & I3). rewrite path_S, !mean_gain, cov_gain, I1, I2, I3. repeat split; ring.
Qed.
Lemma shift_path r nb T mu1 mu2 k i j : (1 <= nb <= T)%nat ->
  ewa_mean r nb (path (level_shift T mu1 mu2) (T + k)) i = mu2 i + (1 - r) ^ k * (mu1 i - mu2 i) /\
  ewa_mean r nb (path (level_shift T mu1 mu2) (T + k)) j = mu2 j + (1 - r) ^ k * (mu1 j - mu2 j) /\
  (ewa_cov r nb (path (level_shift T mu1 mu2) (T + k)) i j = match k with O => 0 | S k' => (1 - r) ^ k' * (1 - (1 - r) ^ k) * ((mu1 i - mu2 i) * (mu1 j - mu2 j)) end).
Proof.
  intros Hb. induction k as [|k IH].
  - rewrite Nat.add_0_r, (path_ext (level_shift T mu1 mu2) (fun _ => mu1)) by (intros t Ht; unfold level_shift; now rewrite (proj2 (Nat.ltb_lt t T))).
    destruct (flat r nb mu1 T ltac:(lia) ltac:(lia) i j) as (-> & -> & ->). cbn [pow]. repeat split; ring.
  - destruct IH as (I1 & I2 & I3). rewrite Nat.add_succ_r, path_S, !mean_gain, cov_gain, path_length, I1, I2, I3.
    unfold rate_at, gain_at. rewrite (proj2 (Nat.ltb_ge (T + k) nb)) by lia. unfold level_shift at 1 2 3 4. rewrite (proj2 (Nat.ltb_ge (T + k) T)) by lia. cbn [pow].
    destruct k as [|k]; cbn [pow]; repeat split; ring.
Qed.
(** After k rows at the new level, location_ has closed all but (1-r)^k of the gap, and the jump is reported as covariance: up to a quarter of its outer product (over 1-r). *)
Theorem C113_ewa_level_shift {Om} (oms : list Om) w p X mu1 mu2 Sig r diff (rows : Om -> list (vec NumX)) T k : 0 < r <= 1 ->
  probability oms w -> (burn_len r <= T)%nat -> (1 <= k)%nat -> around p (T + k) oms w X (level_shift T mu1 mu2) Sig -> (forall o, observes p diff (rows o) (draw X (T + k) o)) ->
  let c := (1 - r) ^ (k - 1) * (1 - (1 - r) ^ k) in
  0 <= c /\ (1 - r) * c <= / 4 /\
  exists (M : Om -> obs) (V : Om -> rmat),
    (forall o, exists e, fitted_on (C := Ewa) (EWA r diff) (rows o) e /\ location_ e = Ok (fv p (M o)) /\ covariance_ e = Ok (fm p p (V o))) /\
    (forall i, (i < p)%nat -> expect oms w (fun o => M o i) = mu2 i + (1 - r) ^ k * (mu1 i - mu2 i)) /\
    (forall i j, (i < p)%nat -> (j < p)%nat -> expect oms w (fun o => V o i j) = bias r (burn_len r) (T + k) * Sig i j + c * ((mu1 i - mu2 i) * (mu1 j - mu2 j))).
Proof.
  intros Hr HP HT Hk HW Ho c. pose proof (burn_len_bounds r) as Hb. pose proof (pow_le (1 - r) (k - 1) ltac:(lra)) as P0. pose proof (pow_le (1 - r) k ltac:(lra)) as P1. pose proof (pow_incr (1 - r) 1 k ltac:(lra)) as P2. rewrite pow1 in P2.
  split; [unfold c; apply Rmult_le_pos; lra|]. split.
  - unfold c. rewrite <- Rmult_assoc. replace ((1 - r) * (1 - r) ^ (k - 1)) with ((1 - r) ^ k) by (destruct k; [lia|cbn [Nat.sub pow]; now rewrite Nat.sub_0_r]).
    set (q := (1 - r) ^ k) in *. pose proof (Rle_0_sqr (q - / 2)) as Q. unfold Rsqr in Q. lra.
  - destruct (drift_moments oms w p (T + k) X _ Sig HP HW r (burn_len r) Hr ltac:(lia) (T + k) ltac:(lia)) as (A1 & _ & _ & A4).
    exists (fun o => ewa_mean r (burn_len r) (draw X (T + k) o)), (fun o => ewa_cov r (burn_len r) (draw X (T + k) o)). split; [|split].
    + intros o. destruct (Ewa_run p r diff (rows o) (draw X (T + k) o) ltac:(lra) (Ho o) (path_ne (fun t => X t o) (T + k) ltac:(lia))) as (e & E1 & _ & E3 & E4 & _). exists e. auto.
    + intros i Hi. rewrite (A1 i Hi). destruct (shift_path r (burn_len r) T mu1 mu2 k i i ltac:(lia)) as (-> & _). reflexivity.
    + intros i j Hi Hj. rewrite (A4 i j Hi Hj). destruct (shift_path r (burn_len r) T mu1 mu2 k i j ltac:(lia)) as (_ & _ & ->). destruct k as [|k']; [lia|]. unfold c. cbn [Nat.sub]. rewrite Nat.sub_0_r. ring.
Qed.
(** EmpiricalCovariance never forgets the old level: T k/n^2 of the jump's outer product stays in the estimate. *)
Theorem C113_empirical_level_shift {Om} (oms : list Om) w p X mu1 mu2 Sig diff (rows : Om -> list (vec NumX)) T k :
  probability oms w -> (1 <= T + k)%nat -> around p (T + k) oms w X (level_shift T mu1 mu2) Sig -> (forall o, observes p diff (rows o) (draw X (T + k) o)) ->
  exists (M : Om -> obs) (V : Om -> rmat),
    (forall o, exists e, fitted_on (C := Empirical) (mkEmpP diff) (rows o) e /\ location_ e = Ok (fv p (M o)) /\ covariance_ e = Ok (fm p p (V o))) /\
    (forall i, (i < p)%nat -> expect oms w (fun o => M o i) = mu2 i + INR T / INR (T + k) * (mu1 i - mu2 i)) /\
    (forall i j, (i < p)%nat -> (j < p)%nat -> expect oms w (fun o => V o i j) =
       (INR (T + k) - 1) / INR (T + k) * Sig i j + INR T * INR k / (INR (T + k) * INR (T + k)) * ((mu1 i - mu2 i) * (mu1 j - mu2 j))).
Proof.
  intros HP Hn HW Ho. assert (N0 : INR (T + k) <> 0) by (apply not_0_INR; lia).
  destruct (C113_empirical oms w p (T + k) X _ Sig diff rows (T + k) HP HW ltac:(lia) Ho) as (e0 & M0 & V0 & M & V & F1 & F3 & F4 & B1 & B2 & B3).
  destruct (Empirical_run p false (map (fv p) (path (level_shift T mu1 mu2) (T + k))) _ (observes_plain p _) (path_ne _ (T + k) ltac:(lia))) as (e1 & G1 & _ & G3 & G4 & _).
  unfold fitted_on in F1. rewrite G1 in F1. injection F1 as <-. rewrite G3 in F3. rewrite G4 in F4.
  assert (S : forall (g : obs -> R), lsum (map g (path (level_shift T mu1 mu2) (T + k))) = INR T * g mu1 + INR k * g mu2).
  { intros g. unfold path. rewrite map_map, lsum_seq, rsum_split. f_equal.
    - rewrite (rsum_ext T _ (fun _ => g mu1)) by (intros t Ht; unfold level_shift; now rewrite (proj2 (Nat.ltb_lt t T))). apply rsum_const.
    - rewrite (rsum_ext k _ (fun _ => g mu2)) by (intros t Ht; unfold level_shift; now rewrite (proj2 (Nat.ltb_ge (T + t) T)) by lia). apply rsum_const. }
  assert (QM : forall i, mean_of (path (level_shift T mu1 mu2) (T + k)) i = mu2 i + INR T / INR (T + k) * (mu1 i - mu2 i)).
  { intros i. unfold mean_of. rewrite S, path_length, plus_INR in *. field. exact N0. }
  exists M, V. split; [exact B1|]. split.
  - intros i Hi. rewrite (B2 i Hi), <- QM. apply Ok_inj in F3. symmetry. exact (fv_inj p _ _ i F3 Hi).
  - intros i j Hi Hj. rewrite (B3 i j Hi Hj). apply Ok_inj in F4. rewrite <- (fm_inj p p (pcov_of _) V0 i j F4 Hi Hj). rewrite (pcov_about _ i j (mu2 i) (mu2 j)) by (apply path_ne; lia).
    rewrite S, !QM, path_length, plus_INR in *. field. exact N0.
Qed.
(** a steady trend: row t has mean a + t b *)
Definition trend (a b : obs) (t : nat) : obs := fun i => a i + INR t * b i.
Lemma sum_ids n : rsum n INR = INR n * (INR n - 1) / 2.
Proof. induction n as [|n IH]; [cbn; field|]. cbn [rsum]. rewrite IH, S_INR. field. Qed.
Lemma sum_sqs n : rsum n (fun t => INR t * INR t) = INR n * (INR n - 1) * (2 * INR n - 1) / 6.
Proof. induction n as [|n IH]; [cbn; field|]. cbn [rsum]. rewrite IH, S_INR. field. Qed.
Lemma trend_mean a b n i : (1 <= n)%nat -> mean_of (path (trend a b) n) i = a i + (INR n - 1) / 2 * b i.
Proof.
  intros Hn. assert (N0 : INR n <> 0) by (apply not_0_INR; lia). unfold mean_of. rewrite path_length. unfold path. rewrite map_map, lsum_seq. unfold trend. rewrite rsum_plus, rsum_const.
  rewrite (rsum_ext n (fun t => INR t * b i) (fun t => b i * INR t)) by (intros; ring). rewrite rsum_scal, sum_ids. field. exact N0.
Qed.
Lemma trend_pcov a b n i j : (1 <= n)%nat -> pcov_of (path (trend a b) n) i j = (INR n * INR n - 1) / 12 * (b i * b j).
Proof.
  intros Hn. assert (N0 : INR n <> 0) by (apply not_0_INR; lia). rewrite (pcov_about _ i j (a i) (a j)) by (apply path_ne; lia). rewrite !trend_mean, path_length by auto. unfold path. rewrite map_map, lsum_seq.
  rewrite (rsum_ext n _ (fun t => (b i * b j) * (INR t * INR t))) by (intros; unfold trend; ring). rewrite rsum_scal, sum_sqs. field. exact N0.
Qed.
(** how far the exponentially weighted mean is behind the last row, in units of b, k rows after the burn-in; and its covariance in units of b b^T *)
Definition lag (r : R) (nb k : nat) : R := (1 - r) / r + (1 - r) ^ k * ((INR nb - 1) / 2 - (1 - r) / r).
Definition spread (r : R) (nb k : nat) : R :=
  let c := (INR nb - 1) / 2 - (1 - r) / r in
  / (r * r) + (1 - r) ^ k * ((INR nb * INR nb - 1) / 12 - / (r * r)) + match k with O => 0 | S k' => (1 - r) ^ k' * (2 * c * INR k + c * c * (1 - (1 - r) ^ k)) end.
Lemma trend_path r nb a b k i j : 0 < r <= 1 -> (1 <= nb)%nat ->
  ewa_mean r nb (path (trend a b) (nb + k)) i = a i + (INR (nb + k) - 1 - lag r nb k) * b i /\
  ewa_mean r nb (path (trend a b) (nb + k)) j = a j + (INR (nb + k) - 1 - lag r nb k) * b j /\
  ewa_cov r nb (path (trend a b) (nb + k)) i j = spread r nb k * (b i * b j).
Proof.
  intros Hr Hb. assert (R0 : r <> 0) by lra. induction k as [|k IH].
  - rewrite Nat.add_0_r, !ewa_mean_burning, ewa_cov_burning by (rewrite path_length; lia). rewrite !trend_mean, trend_pcov by auto. unfold lag, spread. cbn [pow]. cbv zeta. repeat split; field; exact R0.
  - destruct IH as (I1 & I2 & I3). rewrite Nat.add_succ_r, path_S, !mean_gain, cov_gain, path_length, I1, I2, I3.
    unfold rate_at, gain_at. rewrite (proj2 (Nat.ltb_ge (nb + k) nb)) by lia. unfold trend at 1 2 3 4. unfold lag, spread. cbv zeta. rewrite !S_INR. cbn [pow]. set (x := INR (nb + k)). set (y := INR nb).
    split; [field; exact R0|]. split; [field; exact R0|]. destruct k as [|k]; [cbn [pow INR]; field; exact R0|]. rewrite !S_INR. cbn [pow]. set (q := (1 - r) ^ k). set (z := INR k). field. exact R0.
Qed.
(** On a steady trend the exponentially weighted mean stays behind by [lag] (in the end (1-r)/r) rows of the trend, and the trend is reported as covariance: in the end b b^T/r^2
    on top of the noise. *)
Theorem C113_ewa_trend {Om} (oms : list Om) w p X a b Sig r diff (rows : Om -> list (vec NumX)) k : 0 < r <= 1 ->
  let n := (burn_len r + k)%nat in
  probability oms w -> around p n oms w X (trend a b) Sig -> (forall o, observes p diff (rows o) (draw X n o)) ->
  exists (M : Om -> obs) (V : Om -> rmat),
    (forall o, exists e, fitted_on (C := Ewa) (EWA r diff) (rows o) e /\ location_ e = Ok (fv p (M o)) /\ covariance_ e = Ok (fm p p (V o))) /\
    (forall i, (i < p)%nat -> expect oms w (fun o => M o i) = trend a b (n - 1) i - lag r (burn_len r) k * b i) /\
    (forall i j, (i < p)%nat -> (j < p)%nat -> expect oms w (fun o => V o i j) = bias r (burn_len r) n * Sig i j + spread r (burn_len r) k * (b i * b j)).
Proof.
  intros Hr n HP HW Ho. pose proof (burn_len_bounds r) as Hb. destruct (drift_moments oms w p n X _ Sig HP HW r (burn_len r) Hr ltac:(lia) n ltac:(lia)) as (A1 & _ & _ & A4).
  exists (fun o => ewa_mean r (burn_len r) (draw X n o)), (fun o => ewa_cov r (burn_len r) (draw X n o)). split; [|split].
  - intros o. destruct (Ewa_run p r diff (rows o) (draw X n o) ltac:(lra) (Ho o) (path_ne (fun t => X t o) n ltac:(lia))) as (e & E1 & _ & E3 & E4 & _). exists e. auto.
  - intros i Hi. rewrite (A1 i Hi). unfold n. destruct (trend_path r (burn_len r) a b k i i Hr ltac:(lia)) as (-> & _). unfold trend. rewrite minus_INR by lia. cbn [INR]. ring.
  - intros i j Hi Hj. rewrite (A4 i j Hi Hj). unfold n. destruct (trend_path r (burn_len r) a b k i j Hr ltac:(lia)) as (_ & _ & ->). ring.
Qed.
(** EmpiricalCovariance on the same trend falls behind without limit: location_ is (n-1)/2 rows behind and the spread (n^2-1)/12 grows quadratically. *)
Theorem C113_empirical_trend {Om} (oms : list Om) w p X a b Sig diff (rows : Om -> list (vec NumX)) n :
  probability oms w -> (1 <= n)%nat -> around p n oms w X (trend a b) Sig -> (forall o, observes p diff (rows o) (draw X n o)) ->
  exists (M : Om -> obs) (V : Om -> rmat),
    (forall o, exists e, fitted_on (C := Empirical) (mkEmpP diff) (rows o) e /\ location_ e = Ok (fv p (M o)) /\ covariance_ e = Ok (fm p p (V o))) /\
    (forall i, (i < p)%nat -> expect oms w (fun o => M o i) = trend a b (n - 1) i - (INR n - 1) / 2 * b i) /\
    (forall i j, (i < p)%nat -> (j < p)%nat -> expect oms w (fun o => V o i j) = (INR n - 1) / INR n * Sig i j + (INR n * INR n - 1) / 12 * (b i * b j)).
Proof.
  intros HP Hn HW Ho. destruct (C113_empirical oms w p n X _ Sig diff rows n HP HW ltac:(lia) Ho) as (e0 & M0 & V0 & M & V & F1 & F3 & F4 & B1 & B2 & B3).
  destruct (Empirical_run p false (map (fv p) (path (trend a b) n)) _ (observes_plain p _) (path_ne _ n ltac:(lia))) as (e1 & G1 & _ & G3 & G4 & _).
  unfold fitted_on in F1. rewrite G1 in F1. injection F1 as <-. rewrite G3 in F3. rewrite G4 in F4. exists M, V. split; [exact B1|]. split.
  - intros i Hi. rewrite (B2 i Hi). apply Ok_inj in F3. rewrite <- (fv_inj p _ _ i F3 Hi), trend_mean by auto. unfold trend. rewrite minus_INR by lia. cbn [INR]. field.
  - intros i j Hi Hj. rewrite (B3 i j Hi Hj). apply Ok_inj in F4. rewrite <- (fm_inj p p (pcov_of _) V0 i j F4 Hi Hj), trend_pcov by auto. ring.
Qed.
Lemma k_pow s k : 0 <= s < 1 -> INR k * s ^ k * (1 - s) <= 1 - s ^ k.
Proof.
  intros Hs. induction k as [|k IH]; [cbn; lra|]. rewrite S_INR. cbn [pow]. pose proof (pow_le s k ltac:(lra)) as P. pose proof (pow_incr s 1 k ltac:(lra)) as P1. rewrite pow1 in P1. set (q := s ^ k) in *. set (z := INR k) in *. clearbody q z.
  assert (A : s * (z * q * (1 - s)) <= s * (1 - q)) by (apply Rmult_le_compat_l; lra). assert (B : s * q <= 1 * 1) by (apply Rmult_le_compat; lra). assert (B' : s * q * (1 - s) <= 1 * (1 - s)) by (apply Rmult_le_compat_r; lra).
  replace ((z + 1) * (s * q) * (1 - s)) with (s * (z * q * (1 - s)) + s * q * (1 - s)) by ring. assert (s * (s * q) >= 0) by (apply Rle_ge; repeat apply Rmult_le_pos; lra). lra.
Qed.
(** the limits *)
Theorem C113_trend_limits r nb : 0 < r <= 1 -> Un_cv (lag r nb) ((1 - r) / r) /\ Un_cv (spread r nb) (/ (r * r)).
Proof.
  intros Hr. set (s := sqrt (1 - r)). assert (S2 : s * s = 1 - r) by (apply sqrt_sqrt; lra). assert (S0 : 0 <= s) by apply sqrt_pos.
  assert (S1 : s < 1) by (apply Rnot_le_lt; intros H; assert (1 * 1 <= s * s) by (apply Rmult_le_compat; lra); lra).
  assert (PW : forall k, (1 - r) ^ k = s ^ k * s ^ k) by (intros k; rewrite <- S2; apply Rpow_mult_distr).
  assert (PB : forall k, 0 <= s ^ k <= 1) by (intros k; split; [apply pow_le; lra|]; pose proof (pow_incr s 1 k ltac:(lra)) as P; rewrite pow1 in P; exact P).
  set (c := (INR nb - 1) / 2 - (1 - r) / r). set (A := (INR nb * INR nb - 1) / 12 - / (r * r)). pose proof (Rabs_pos c) as C0. pose proof (Rabs_pos A) as A0. split.
  - apply (pow_cv r 0 _ _ (Rabs c + 1) Hr ltac:(lra)). intros n Hn. unfold lag. fold c. replace ((1 - r) / r + (1 - r) ^ n * c - (1 - r) / r) with ((1 - r) ^ n * c) by ring. destruct n as [|k]; [lia|]. cbn [Nat.sub]. rewrite Nat.sub_0_r. cbn [pow].
    pose proof (pow_le (1 - r) k ltac:(lra)) as P. rewrite !Rabs_mult, (Rabs_right (1 - r)), (Rabs_right ((1 - r) ^ k)) by lra. set (q := (1 - r) ^ k) in *. clearbody q.
    assert ((1 - r) * (q * Rabs c) <= 1 * (q * Rabs c)) by (apply Rmult_le_compat_r; [now apply Rmult_le_pos|lra]). lra.
  - set (D := Rabs A + (2 * Rabs c * (/ (1 - s) + 1) + c * c) + 1). pose proof (Rle_0_sqr c) as CC. unfold Rsqr in CC. assert (I0 : 0 < / (1 - s)) by (apply Rinv_0_lt_compat; lra).
    assert (D0 : 0 <= 2 * Rabs c * (/ (1 - s) + 1)) by (apply Rmult_le_pos; lra). apply (pow_cv (1 - s) 0 _ _ D ltac:(lra) ltac:(unfold D; lra)).
    intros n Hn. destruct n as [|k]; [lia|]. cbn [Nat.sub]. rewrite Nat.sub_0_r. replace (1 - (1 - s)) with s by ring. unfold spread. cbv zeta. fold c A. rewrite S_INR.
    replace (/ (r * r) + (1 - r) ^ S k * A + (1 - r) ^ k * (2 * c * (INR k + 1) + c * c * (1 - (1 - r) ^ S k)) - / (r * r)) with (((1 - r) * s ^ k * A + (2 * c * (INR k * s ^ k + s ^ k) + c * c * ((1 - (1 - r) ^ S k) * s ^ k))) * s ^ k) by (cbn [pow]; rewrite !PW; ring).
    rewrite Rabs_mult, (Rabs_right (s ^ k)) by (apply Rle_ge, PB). apply Rmult_le_compat_r; [apply PB|]. pose proof (PB k) as Q. pose proof (pow_le (1 - r) (S k) ltac:(lra)) as P3. pose proof (pow_incr (1 - r) 1 (S k) ltac:(lra)) as P4. rewrite pow1 in P4.
    assert (K : 0 <= INR k * s ^ k <= / (1 - s)). { split; [apply Rmult_le_pos; [apply pos_INR|apply PB]|]. apply Rmult_le_reg_r with (1 - s); [lra|]. rewrite Rinv_l by lra. pose proof (k_pow s k ltac:(lra)). lra. }
    set (q := s ^ k) in *. set (z := INR k * q) in *. set (u := (1 - r) ^ S k) in *. clearbody q z u.
    eapply Rle_trans; [apply Rabs_triang|]. assert (T1 : Rabs ((1 - r) * q * A) <= Rabs A).
    { rewrite Rabs_mult. replace (Rabs A) with (1 * Rabs A) at 2 by ring. apply Rmult_le_compat_r; [exact A0|]. destruct (prod_le1 (1 - r) q ltac:(lra) Q). rewrite Rabs_right; lra. }
    eapply Rle_trans; [apply Rplus_le_compat_l, Rabs_triang|]. assert (T2 : Rabs (2 * c * (z + q)) <= 2 * Rabs c * (/ (1 - s) + 1)).
    { rewrite !Rabs_mult, (Rabs_right 2), (Rabs_right (z + q)) by lra. apply Rmult_le_compat_l; lra. }
    assert (T3 : Rabs (c * c * ((1 - u) * q)) <= c * c). { rewrite Rabs_mult, (Rabs_right (c * c)) by lra. replace (c * c) with (c * c * 1) at 2 by ring. apply Rmult_le_compat_l; [exact CC|]. destruct (prod_le1 (1 - u) q ltac:(lra) Q). rewrite Rabs_right; lra. }
    unfold D. lra.
Qed.
(** the premises are met: independent signs around any path *)
Example C113_witness m n : (1 <= n)%nat -> probability (signs n) (fun _ => / 2 ^ n) /\ around 2 n (signs n) (fun _ => / 2 ^ n) (fun t o i => m t i + nth t o 0) m (fun _ _ => 1).
Proof.
  intros Hn. destruct (C112_witness n Hn) as (HP & ((_ & H2) & _) & _). split; [exact HP|]. split.
  - intros t i Ht _. rewrite E_plus, (E_const _ _ _ (proj2 HP)), signs_zero by auto. ring.
  - intros s t i j Hs Ht Hi Hj. rewrite <- (H2 s t i j Hs Ht Hi Hj). apply E_ext. intros; ring.
Qed.

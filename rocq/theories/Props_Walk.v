(** * C115: levels or differences of a random walk *)
From Coq Require Import Reals ZArith String List Lia Lra Psatz Arith Bool.
From Verif Require Import Num Numpy PyVal LinalgModel StateModel BaseModel Estimators RegistryModel Spec ListLemmas BaseProofs
  RMat LinSpec Fin RealSpec RunFin EwaReal RunAvg EmpFacts Props_Emp ShrinkReal Props_Shrink FloatEwa Props_Bias Props_Consistency Props_Drift.
Import ListNotations.
Local Open Scope string_scope.
Local Open Scope R_scope.

(** ** The specification: levels X 0, X 1, ... whose increments are driftless white noise with covariance Sig *)
Definition random_walk {Om} (p N : nat) (oms : list Om) (w : Om -> R) (X : nat -> Om -> obs) (x0 : obs) (Sig : rmat) : Prop :=
  (forall i, (i < p)%nat -> expect oms w (fun o => X 0%nat o i) = x0 i) /\
  white_noise p N oms w (fun t o i => X (S t) o i - X t o i) (fun _ => 0) Sig.
(** the covariance, in units of Sig, of the next level around the mean of n levels *)
Definition walk_gap (r : R) (nb n : nat) : R :=
  if Nat.leb n nb then (INR n + 1) * (2 * INR n + 1) / (6 * INR n)
  else / (r * (2 - r)) + (1 - r) ^ (2 * (n - nb)) * ((INR nb + 1) * (2 * INR nb + 1) / (6 * INR nb) - / (r * (2 - r))).
(** the expected covariance_ of n levels, in units of Sig *)
Definition walk_cov (r : R) (nb n : nat) : R :=
  let b := (INR nb * INR nb - 1) / (6 * INR nb) in let d := (INR nb + 1) * (2 * INR nb + 1) / (6 * INR nb) in let s := / (r * (2 - r)) in
  if Nat.leb n nb then (INR n * INR n - 1) / (6 * INR n)
  else let k := (n - nb)%nat in s + (1 - r) ^ k * (b - s) + (1 - r) ^ (k - 1) * (1 - (1 - r) ^ k) * (d - s).

Lemma walk_gap_S r nb n : 0 < r <= 1 -> (1 <= nb)%nat -> (1 <= n)%nat -> walk_gap r nb (S n) = (1 - rate_at r nb n) ^ 2 * walk_gap r nb n + 1.
Proof.
  intros Hr Hb Hn. unfold walk_gap, rate_at. assert (N0 : INR n <> 0) by (apply not_0_INR; lia). pose proof (INR_S_nz n) as N1. assert (B0 : INR nb <> 0) by (apply not_0_INR; lia).
  destruct (Nat.ltb_spec n nb) as [H|H].
  - rewrite !(proj2 (Nat.leb_le _ nb)) by lia. rewrite S_INR in *. field. repeat split; solve [assumption|lra].
  - rewrite (proj2 (Nat.leb_gt (S n) nb)) by lia. destruct (Nat.leb_spec n nb) as [H1|H1].
    + assert (n = nb) as -> by lia. replace (2 * (S nb - nb))%nat with 2%nat by lia. field. repeat split; solve [exact B0|lra].
    + replace (2 * (S n - nb))%nat with (S (S (2 * (n - nb))))%nat by lia. cbn [pow]. set (q := (1 - r) ^ (2 * (n - nb))). field. repeat split; solve [exact B0|lra].
Qed.
Lemma walk_cov_S r nb n : 0 < r <= 1 -> (1 <= nb)%nat -> (1 <= n)%nat -> walk_cov r nb (S n) = (1 - rate_at r nb n) * walk_cov r nb n + gain_at r nb n * walk_gap r nb n.
Proof.
  intros Hr Hb Hn. unfold walk_cov, walk_gap, rate_at, gain_at. cbv zeta. assert (N0 : INR n <> 0) by (apply not_0_INR; lia). pose proof (INR_S_nz n) as N1. assert (B0 : INR nb <> 0) by (apply not_0_INR; lia).
  destruct (Nat.ltb_spec n nb) as [H|H].
  - rewrite !(proj2 (Nat.leb_le _ nb)) by lia. rewrite S_INR in *. field. repeat split; solve [assumption|lra].
  - rewrite (proj2 (Nat.leb_gt (S n) nb)) by lia. destruct (Nat.leb_spec n nb) as [H1|H1].
    + assert (n = nb) as -> by lia. replace (S nb - nb)%nat with 1%nat by lia. cbn [Nat.sub pow]. field. repeat split; solve [exact B0|lra].
    + destruct (n - nb)%nat as [|k] eqn:Ek; [lia|]. replace (S n - nb)%nat with (S (S k)) by lia. cbn [Nat.sub]. replace (2 * S k)%nat with (S k + S k)%nat by lia. rewrite pow_add. cbn [pow]. rewrite ?Nat.sub_0_r. set (q := (1 - r) ^ k). field. repeat split; solve [exact B0|lra].
Qed.

Section Walk.
  Context {Om : Type} (oms : list Om) (w : Om -> R) (p N : nat) (X : nat -> Om -> obs) (x0 : obs) (Sig : rmat).
  Context (HP : probability oms w) (HW : random_walk p N oms w X x0 Sig) (r : R) (nb : nat) (Hr : 0 < r <= 1) (Hb : (1 <= nb)%nat).
  Notation E := (expect oms w).
  Notation M n o := (ewa_mean r nb (draw X n o)).
  Notation V n o := (ewa_cov r nb (draw X n o)).
  Lemma walk_level n i : (n <= N)%nat -> (i < p)%nat -> E (fun o => X n o i) = x0 i.
  Proof.
    destruct HW as [W0 [W1 _]]. induction n as [|n IH]; intros Hn Hi; [now apply W0|].
    rewrite (E_ext oms w _ (fun o => X n o i + (X (S n) o i - X n o i))) by (intros; ring). rewrite E_plus, IH, W1 by (auto; lia). ring.
  Qed.
  Lemma walk_moments n : (1 <= n <= S N)%nat ->
    (forall i, (i < p)%nat -> E (fun o => M n o i) = x0 i) /\
    (forall t i j, (n - 1 <= t < N)%nat -> (i < p)%nat -> (j < p)%nat -> E (fun o => (X (n - 1)%nat o i - M n o i) * (X (S t) o j - X t o j)) = 0) /\
    (forall i j, (i < p)%nat -> (j < p)%nat -> E (fun o => (X (n - 1)%nat o i - M n o i) * (X (n - 1)%nat o j - M n o j)) = (walk_gap r nb n - 1) * Sig i j) /\
    (forall i j, (i < p)%nat -> (j < p)%nat -> E (fun o => V n o i j) = walk_cov r nb n * Sig i j).
  Proof.
    induction n as [|n IH]; [lia|]. intros Hn. destruct (Nat.eq_dec n 0) as [->|Hn0].
    - assert (M1 : forall o i, M 1 o i = X 0%nat o i) by (intros o i; exact (one_mean r nb Hb (fun t => X t o) i)).
      assert (V1 : forall o i j, V 1 o i j = 0) by (intros o i j; exact (one_cov r nb Hb (fun t => X t o) i j)).
      cbn [Nat.sub]. split; [|split; [|split]].
      + intros i Hi. rewrite (E_ext oms w _ (fun o => X 0%nat o i)) by (intros; apply M1). apply walk_level; lia.
      + intros t i j Ht Hi Hj. rewrite (E_ext oms w _ (fun o => 0 * 0)) by (intros; rewrite M1; ring). rewrite E_scal. ring.
      + intros i j Hi Hj. rewrite (E_ext oms w _ (fun o => 0 * 0)) by (intros; rewrite !M1; ring). rewrite E_scal. unfold walk_gap. rewrite (proj2 (Nat.leb_le 1 nb)) by lia. cbn [INR]. field.
      + intros i j Hi Hj. rewrite (E_ext oms w _ (fun o => 0 * 0)) by (intros; rewrite V1; ring). rewrite E_scal. unfold walk_cov. rewrite (proj2 (Nat.leb_le 1 nb)) by lia. cbn [INR]. field.
    - destruct (IH ltac:(lia)) as (I1 & I2 & I3 & I4). rewrite walk_gap_S, walk_cov_S by (auto; lia). set (a := rate_at r nb n) in *. set (g := gain_at r nb n) in *.
      destruct HW as [W0 [W1 W2]].
      assert (MS : forall o i, M (S n) o i = (1 - a) * M n o i + a * X n o i) by (intros; rewrite draw_S, mean_gain, draw_length; reflexivity).
      assert (VS : forall o i j, V (S n) o i j = (1 - a) * V n o i j + g * ((X n o i - M n o i) * (X n o j - M n o j))) by (intros; rewrite draw_S, cov_gain, draw_length; reflexivity).
      assert (W2' : forall s t i j, (s < N)%nat -> (t < N)%nat -> (i < p)%nat -> (j < p)%nat -> E (fun o => (X (S s) o i - X s o i) * (X (S t) o j - X t o j)) = if Nat.eqb s t then Sig i j else 0).
      { intros s t i j Hs Ht Hi Hj. rewrite <- (W2 s t i j Hs Ht Hi Hj). apply E_ext. intros; ring. }
      destruct n as [|m]; [lia|]. cbn [Nat.sub] in *. rewrite ?Nat.sub_0_r in *.
      assert (Gap : forall i j, (i < p)%nat -> (j < p)%nat -> E (fun o => (X (S m) o i - M (S m) o i) * (X (S m) o j - M (S m) o j)) = walk_gap r nb (S m) * Sig i j).
      { intros i j Hi Hj. rewrite (E_ext oms w _ (fun o => ((X m o i - M (S m) o i) * (X m o j - M (S m) o j) + (X (S m) o i - X m o i) * (X (S m) o j - X m o j))
            + ((X m o i - M (S m) o i) * (X (S m) o j - X m o j) + (X m o j - M (S m) o j) * (X (S m) o i - X m o i)))) by (intros; ring).
        rewrite !E_plus, I3, W2', !I2 by (auto; lia). rewrite Nat.eqb_refl. ring. }
      split; [|split; [|split]].
      + intros i Hi. rewrite (E_ext oms w _ (fun o => (1 - a) * M (S m) o i + a * X (S m) o i)) by (intros; apply MS). rewrite E_plus, !E_scal, I1, walk_level by (auto; lia). ring.
      + intros t i j Ht Hi Hj. rewrite (E_ext oms w _ (fun o => (1 - a) * ((X m o i - M (S m) o i) * (X (S t) o j - X t o j)) + (1 - a) * ((X (S m) o i - X m o i) * (X (S t) o j - X t o j)))) by (intros; rewrite MS; ring).
        rewrite E_plus, !E_scal, I2, W2' by (auto; lia). destruct (Nat.eqb_spec m t); [lia|ring].
      + intros i j Hi Hj. rewrite (E_ext oms w _ (fun o => (1 - a) ^ 2 * ((X (S m) o i - M (S m) o i) * (X (S m) o j - M (S m) o j)))) by (intros; rewrite !MS; ring).
        rewrite E_scal, Gap by auto. ring.
      + intros i j Hi Hj. rewrite (E_ext oms w _ (fun o => (1 - a) * V (S m) o i j + g * ((X (S m) o i - M (S m) o i) * (X (S m) o j - M (S m) o j)))) by (intros; apply VS).
        rewrite E_plus, !E_scal, Gap, I4 by auto. ring.
  Qed.
End Walk.
(** ** C115 *)
(** Fed the levels, EwaCovariance's location_ trails the last level with covariance (walk_gap - 1) Sig and its expected covariance_ is walk_cov times the increments' covariance. *)
Theorem C115_ewa_levels {Om} (oms : list Om) w p N X x0 Sig r (rows : Om -> list (vec NumX)) n : 0 < r <= 1 ->
  probability oms w -> random_walk p N oms w X x0 Sig -> (1 <= n <= S N)%nat -> (forall o, observes p false (rows o) (draw X n o)) ->
  exists (M : Om -> obs) (V : Om -> rmat),
    (forall o, exists e, fitted_on (C := Ewa) (EWA r false) (rows o) e /\ location_ e = Ok (fv p (M o)) /\ covariance_ e = Ok (fm p p (V o))) /\
    (forall i, (i < p)%nat -> expect oms w (fun o => M o i) = x0 i) /\
    (forall i j, (i < p)%nat -> (j < p)%nat -> expect oms w (fun o => (X (n - 1)%nat o i - M o i) * (X (n - 1)%nat o j - M o j)) = (walk_gap r (burn_len r) n - 1) * Sig i j) /\
    (forall i j, (i < p)%nat -> (j < p)%nat -> expect oms w (fun o => V o i j) = walk_cov r (burn_len r) n * Sig i j).
Proof.
  intros Hr HP HW Hn Ho. pose proof (burn_len_bounds r) as Hb. destruct (walk_moments oms w p N X x0 Sig HW r (burn_len r) Hr ltac:(lia) n Hn) as (A1 & _ & A3 & A4).
  exists (fun o => ewa_mean r (burn_len r) (draw X n o)), (fun o => ewa_cov r (burn_len r) (draw X n o)). split; [|split; [exact A1|split; [exact A3|exact A4]]].
  intros o. destruct (Ewa_run p r false (rows o) (draw X n o) ltac:(lra) (Ho o) (path_ne (fun t => X t o) n ltac:(lia))) as (e & E1 & _ & E3 & E4 & _). exists e. auto.
Qed.
(** Fed the levels, EmpiricalCovariance reports (n^2-1)/(6n) times the increments' covariance. *)
Theorem C115_empirical_levels {Om} (oms : list Om) w p N X x0 Sig (rows : Om -> list (vec NumX)) n :
  probability oms w -> random_walk p N oms w X x0 Sig -> (1 <= n <= S N)%nat -> (forall o, observes p false (rows o) (draw X n o)) ->
  exists (M : Om -> obs) (V : Om -> rmat),
    (forall o, exists e, fitted_on (C := Empirical) (mkEmpP false) (rows o) e /\ location_ e = Ok (fv p (M o)) /\ covariance_ e = Ok (fm p p (V o))) /\
    (forall i, (i < p)%nat -> expect oms w (fun o => M o i) = x0 i) /\
    (forall i j, (i < p)%nat -> (j < p)%nat -> expect oms w (fun o => (X (n - 1)%nat o i - M o i) * (X (n - 1)%nat o j - M o j)) = (INR n - 1) * (2 * INR n - 1) / (6 * INR n) * Sig i j) /\
    (forall i j, (i < p)%nat -> (j < p)%nat -> expect oms w (fun o => V o i j) = (INR n * INR n - 1) / (6 * INR n) * Sig i j).
Proof.
  intros HP HW Hn Ho. destruct (walk_moments oms w p N X x0 Sig HW 1 (S N) ltac:(lra) ltac:(lia) n Hn) as (A1 & _ & A3 & A4). assert (N0 : INR n <> 0) by (apply not_0_INR; lia).
  assert (EM : forall o i, ewa_mean 1 (S N) (draw X n o) i = mean_of (draw X n o) i) by (intros; apply ewa_mean_burning; rewrite draw_length; lia).
  assert (EV : forall o i j, ewa_cov 1 (S N) (draw X n o) i j = pcov_of (draw X n o) i j) by (intros; apply ewa_cov_burning; rewrite draw_length; lia).
  exists (fun o => mean_of (draw X n o)), (fun o => pcov_of (draw X n o)). split; [|split; [|split]].
  - intros o. destruct (Empirical_run p false (rows o) (draw X n o) (Ho o) (path_ne (fun t => X t o) n ltac:(lia))) as (e & E1 & _ & E3 & E4 & _). exists e. auto.
  - intros i Hi. rewrite <- (A1 i Hi). apply E_ext. intros; symmetry; apply EM.
  - intros i j Hi Hj. transitivity ((walk_gap 1 (S N) n - 1) * Sig i j); [rewrite <- (A3 i j Hi Hj); apply E_ext; intros; now rewrite !EM|]. unfold walk_gap. rewrite (proj2 (Nat.leb_le n (S N))) by lia. field. exact N0.
  - intros i j Hi Hj. transitivity (walk_cov 1 (S N) n * Sig i j); [rewrite <- (A4 i j Hi Hj); apply E_ext; intros; now rewrite EV|]. unfold walk_cov. rewrite (proj2 (Nat.leb_le n (S N))) by lia. reflexivity.
Qed.
(** With diff=True the same n+1 levels give the increments' own covariance, up to the factor of n white-noise rows. *)
Lemma rdiffs_draw {Om} (X : nat -> Om -> obs) n o : rdiffs (draw X (S n) o) = draw (fun t o i => X (S t) o i - X t o i) n o.
Proof.
  unfold draw. generalize 0%nat. induction n as [|n IH]; intros s; [reflexivity|]. change (seq s (S (S n))) with (s :: S s :: seq (S (S s)) n). change (seq s (S n)) with (s :: seq (S s) n).
  cbn [map rdiffs]. f_equal. exact (IH (S s)).
Qed.
Theorem C115_differences {Om} (oms : list Om) w p N X x0 Sig r n : 0 < r <= 1 ->
  probability oms w -> random_walk p N oms w X x0 Sig -> (1 <= n <= N)%nat ->
  exists (V V' : Om -> rmat),
    (forall o, exists e, fitted_on (C := Ewa) (EWA r true) (map (fv p) (draw X (S n) o)) e /\ covariance_ e = Ok (fm p p (V o))) /\
    (forall i j, (i < p)%nat -> (j < p)%nat -> expect oms w (fun o => V o i j) = bias r (burn_len r) n * Sig i j) /\
    (forall o, exists e, fitted_on (C := Empirical) (mkEmpP true) (map (fv p) (draw X (S n) o)) e /\ covariance_ e = Ok (fm p p (V' o))) /\
    (forall i j, (i < p)%nat -> (j < p)%nat -> expect oms w (fun o => V' o i j) = (INR n - 1) / INR n * Sig i j).
Proof.
  intros Hr HP [_ HW] Hn. set (D := fun t o i => X (S t) o i - X t o i) in *.
  assert (Ho : forall o, observes p true (map (fv p) (draw X (S n) o)) (draw D n o)) by (intros o; unfold D; rewrite <- rdiffs_draw; apply observes_diff).
  destruct (C111_ewa oms w p N D (fun _ => 0) Sig r true _ n Hr HP HW Hn Ho) as (M & V & F & _ & _ & B).
  destruct (C111_empirical oms w p N D (fun _ => 0) Sig true _ n HP HW Hn Ho) as (M' & V' & F' & _ & _ & B').
  exists V, V'. split; [|split; [exact B|split; [|exact B']]].
  - intros o. destruct (F o) as (e & F1 & _ & F3). exists e. auto.
  - intros o. destruct (F' o) as (e & F1 & _ & F3). exists e. auto.
Qed.
(** The limits: on levels the exponentially weighted covariance settles at 1/(r(2-r)) times the increments' covariance (never below it), the empirical one grows without bound. *)
Theorem C115_limits r nb : 0 < r <= 1 -> (1 <= nb)%nat ->
  Un_cv (walk_gap r nb) (/ (r * (2 - r))) /\ Un_cv (walk_cov r nb) (/ (r * (2 - r))) /\ 1 <= / (r * (2 - r)) /\
  cv_infty (fun n => (INR n * INR n - 1) / (6 * INR n)).
Proof.
  intros Hr Hb. assert (B1 : 1 <= INR nb) by (replace 1 with (INR 1) by reflexivity; now apply le_INR).
  assert (S0 : 0 < r * (2 - r) <= 1). { split; [apply Rmult_lt_0_compat; lra|]. pose proof (Rle_0_sqr (1 - r)) as Q. unfold Rsqr in Q. lra. }
  assert (S1 : 1 <= / (r * (2 - r))) by (rewrite <- Rinv_1; apply Rinv_le_contravar; lra).
  split; [|split; [|split; [exact S1|]]].
  - set (c := Rabs ((INR nb + 1) * (2 * INR nb + 1) / (6 * INR nb) - / (r * (2 - r))) + 1). pose proof (Rabs_pos ((INR nb + 1) * (2 * INR nb + 1) / (6 * INR nb) - / (r * (2 - r)))) as C0.
    apply (pow_cv r nb _ _ c Hr ltac:(unfold c; lra)). intros n Hn. unfold walk_gap. rewrite (proj2 (Nat.leb_gt n nb)) by lia.
    set (z := (INR nb + 1) * (2 * INR nb + 1) / (6 * INR nb) - / (r * (2 - r))) in *. replace (/ (r * (2 - r)) + (1 - r) ^ (2 * (n - nb)) * z - / (r * (2 - r))) with (z * (1 - r) ^ (2 * (n - nb))) by ring.
    replace (2 * (n - nb))%nat with ((n - nb - 1) + (n - nb + 1))%nat by lia. rewrite pow_add, Rabs_mult.
    pose proof (pow_le (1 - r) (n - nb - 1) ltac:(lra)) as P. pose proof (pow_le (1 - r) (n - nb + 1) ltac:(lra)) as P1. pose proof (pow_incr (1 - r) 1 (n - nb + 1) ltac:(lra)) as P2. rewrite pow1 in P2.
    rewrite (Rabs_right (_ * _)) by (apply Rle_ge, Rmult_le_pos; assumption). unfold c. apply Rmult_le_compat; [lra|apply Rmult_le_pos; assumption|lra|]. rewrite <- (Rmult_1_r ((1 - r) ^ (n - nb - 1))) at 2. apply Rmult_le_compat_l; lra.
  - unfold walk_cov. cbv zeta. set (b := (INR nb * INR nb - 1) / (6 * INR nb)). set (d := (INR nb + 1) * (2 * INR nb + 1) / (6 * INR nb)). set (s := / (r * (2 - r))) in *.
    pose proof (Rabs_pos (b - s)) as C0. pose proof (Rabs_pos (d - s)) as C1.
    apply (pow_cv r nb _ _ (Rabs (b - s) + Rabs (d - s) + 1) Hr ltac:(lra)). intros n Hn. rewrite (proj2 (Nat.leb_gt n nb)) by lia. destruct (n - nb)%nat as [|k] eqn:Ek; [lia|]. replace (S k - 1)%nat with k by lia. cbn [pow].
    set (q := (1 - r) ^ k). assert (Q : 0 <= q) by (apply pow_le; lra). pose proof (pow_incr (1 - r) 1 k ltac:(lra)) as Q1. rewrite pow1 in Q1. fold q in Q1.
    replace (s + (1 - r) * q * (b - s) + q * (1 - (1 - r) * q) * (d - s) - s) with (((b - s) * (1 - r) + (d - s) * (1 - (1 - r) * q)) * q) by ring.
    rewrite Rabs_mult, (Rabs_right q) by lra. apply Rmult_le_compat_r; [exact Q|]. assert (X2 : 0 <= (1 - r) * q <= 1) by (apply prod_le1; lra).
    eapply Rle_trans; [apply Rabs_triang|]. rewrite !Rabs_mult, (Rabs_right (1 - r)), (Rabs_right (1 - _)) by lra.
    assert (Rabs (b - s) * (1 - r) <= Rabs (b - s)) by (rewrite <- (Rmult_1_r (Rabs (b - s))) at 2; apply Rmult_le_compat_l; lra).
    assert (Rabs (d - s) * (1 - (1 - r) * q) <= Rabs (d - s)) by (rewrite <- (Rmult_1_r (Rabs (d - s))) at 2; apply Rmult_le_compat_l; lra). lra.
  - intros K. destruct (archimed (Rmax 0 (6 * K + 1))) as [H0 _]. pose proof (Rmax_l 0 (6 * K + 1)) as M0. pose proof (Rmax_r 0 (6 * K + 1)) as M1. set (n0 := Z.to_nat (up (Rmax 0 (6 * K + 1)))). assert (H1 : 6 * K + 1 < INR n0) by (unfold n0; rewrite INR_IZR_INZ, Z2Nat.id by (apply le_IZR; lra); lra). exists (S n0). intros n Hn. assert (n0 < n)%nat by lia. assert (L : INR n0 < INR n) by now apply lt_INR.
    assert (L1 : 1 <= INR n) by (replace 1 with (INR 1) by reflexivity; apply le_INR; lia). assert (N0 : INR n <> 0) by lra.
    replace ((INR n * INR n - 1) / (6 * INR n)) with ((INR n - / INR n) / 6) by (field; exact N0). assert (/ INR n <= 1) by (rewrite <- Rinv_1; apply Rinv_le_contravar; lra). lra.
Qed.
(** the premises are met: the running sums of independent signs *)
Example C115_witness N : (1 <= N)%nat ->
  probability (signs N) (fun _ => / 2 ^ N) /\ random_walk 2 N (signs N) (fun _ => / 2 ^ N) (fun t o _ => rsum t (fun s => nth s o 0)) (fun _ => 0) (fun _ _ => 1) /\
  walk_gap (1 / 10) 20 2 = 5 / 4 /\ walk_cov (1 / 10) 20 2 = 1 / 4 /\ / (1 / 10 * (2 - 1 / 10)) = 100 / 19.
Proof.
  intros Hn. split; [|split; [split; [|split]|split; [|split]]].
  - split; [|apply signs_one]. intros o _. left. apply Rinv_0_lt_compat, pow_lt. lra.
  - intros i _. cbn [rsum]. apply (E_const _ _ _ (signs_one N)).
  - intros t i Ht _. change (expect (signs N) (fun _ => / 2 ^ N) (fun o => rsum (S t) (fun s => nth s o 0) - rsum t (fun s => nth s o 0)) = 0). etransitivity; [|exact (signs_zero N t Ht)]. apply E_ext. intros; cbn [rsum]; ring.
  - intros s t i j Hs Ht _ _. rewrite <- (signs_pair N s t Hs Ht). apply E_ext. intros; cbn [rsum]; ring.
  - unfold walk_gap. cbn [Nat.leb INR]. field.
  - unfold walk_cov. cbv zeta. cbn [Nat.leb INR]. field.
  - field.
Qed.

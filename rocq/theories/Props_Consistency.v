(** * C112: more data helps the empirical estimate, and the exponentially weighted one only up to a floor *)
From Coq Require Import Reals ZArith String List Lia Lra Psatz Arith Bool.
From Verif Require Import Num Numpy PyVal LinalgModel StateModel BaseModel Estimators RegistryModel Spec ListLemmas BaseProofs
  RMat LinSpec Fin RealSpec RunFin EwaReal RunAvg EmpFacts Props_Emp ShrinkReal Props_Shrink FloatEwa Props_Bias.
Import ListNotations.
Local Open Scope string_scope.
Local Open Scope R_scope.

(** ** The specification *)
(** the probability that the random quantity [f] is at least [eps] away from [l] *)
Definition off_by {Om} (oms : list Om) (w : Om -> R) (f : Om -> R) (l eps : R) : R :=
  expect oms w (fun o => if Rle_dec eps (Rabs (f o - l)) then 1 else 0).
(** white noise whose squares and products are white noise as well (e.g. independent rows), with variances at most [k] *)
Definition steady_noise {Om} (p n : nat) (oms : list Om) (w : Om -> R) (X : nat -> Om -> obs) (mu : obs) (Sig : rmat) (k : R) : Prop :=
  white_noise p n oms w X mu Sig /\
  forall i j, (i < p)%nat -> (j < p)%nat -> exists kij, kij <= k /\
    white_noise 1 n oms w (fun t o _ => (X t o i - mu i) * (X t o j - mu j)) (fun _ => Sig i j) (fun _ _ => kij).

(** ** Chebyshev *)
Section Chebyshev.
  Context {Om : Type} (oms : list Om) (w : Om -> R) (HP : probability oms w).
  Notation E := (expect oms w).
  Lemma E_le f g : (forall o, In o oms -> f o <= g o) -> E f <= E g.
  Proof.
    pose proof (proj1 HP) as W. clear HP. unfold expect. induction oms as [|o l IH]; intros H; [cbn; lra|]. cbn [map lsum]. apply Rplus_le_compat.
    - apply Rmult_le_compat_l; [apply W; now left|apply H; now left].
    - apply IH; intros; [apply W|apply H]; now right.
  Qed.
  Lemma E_nonneg f : (forall o, In o oms -> 0 <= f o) -> 0 <= E f.
  Proof. intros H. replace 0 with (E (fun _ => 0 * 0)) by (rewrite E_scal; ring). apply E_le. intros o Ho. specialize (H o Ho). lra. Qed.
  Lemma off_by_range f l eps : 0 <= off_by oms w f l eps <= 1.
  Proof.
    split; [apply E_nonneg|rewrite <- (proj2 HP); apply E_le]; intros o _; destruct (Rle_dec _ _); lra.
  Qed.
  Lemma markov f l eps : 0 < eps -> off_by oms w f l eps <= E (fun o => Rabs (f o - l)) / eps.
  Proof.
    intros He. unfold Rdiv. rewrite Rmult_comm, <- E_scal. apply E_le. intros o _. pose proof (Rabs_pos (f o - l)) as P. destruct (Rle_dec _ _) as [H|H].
    - apply Rmult_le_reg_l with eps; [lra|]. rewrite <- Rmult_assoc, Rinv_r by lra. lra.
    - apply Rmult_le_pos; [left; now apply Rinv_0_lt_compat|exact P].
  Qed.
  Lemma chebyshev f l eps : 0 < eps -> off_by oms w f l eps <= E (fun o => (f o - l) * (f o - l)) / (eps * eps).
  Proof.
    intros He. assert (E2 : 0 < eps * eps) by (apply Rmult_lt_0_compat; lra). unfold Rdiv. rewrite Rmult_comm, <- E_scal. apply E_le. intros o _.
    assert (Q : (f o - l) * (f o - l) = Rabs (f o - l) * Rabs (f o - l)) by (rewrite <- Rabs_mult; symmetry; apply Rabs_right; pose proof (Rle_0_sqr (f o - l)) as S; unfold Rsqr in S; lra).
    rewrite Q. pose proof (Rabs_pos (f o - l)) as P. set (a := Rabs (f o - l)) in *. destruct (Rle_dec _ _) as [H|H].
    - apply Rmult_le_reg_l with (eps * eps); [lra|]. rewrite <- Rmult_assoc, Rinv_r, Rmult_1_l, Rmult_1_r by lra. apply Rmult_le_compat; lra.
    - apply Rmult_le_pos; [left; now apply Rinv_0_lt_compat|now apply Rmult_le_pos].
  Qed.
  Lemma off_by_split f g h l eps : 0 < eps -> (forall o, In o oms -> f o - l = (g o - l) - h o) -> off_by oms w f l eps <= off_by oms w g l (eps / 2) + off_by oms w h 0 (eps / 2).
  Proof.
    intros He H. unfold off_by. rewrite <- E_plus. apply E_le. intros o Ho. specialize (H o Ho). rewrite H. rewrite (Rminus_0_r (h o)).
    pose proof (Rabs_triang (g o - l) (- h o)) as T. rewrite Rabs_Ropp in T. change ((g o - l) + - h o) with ((g o - l) - h o) in T.
    destruct (Rle_dec eps _), (Rle_dec (eps / 2) (Rabs (g o - l))), (Rle_dec (eps / 2) (Rabs (h o))); lra.
  Qed.
End Chebyshev.

Lemma pcov_about xs i j a b : xs <> [] -> pcov_of xs i j = lsum (map (fun x => (x i - a) * (x j - b)) xs) / INR (length xs) - (mean_of xs i - a) * (mean_of xs j - b).
Proof.
  intros Hx. rewrite pcov_alt by auto. unfold mean_of. assert (N0 : INR (length xs) <> 0) by (apply not_0_INR; destruct xs; [congruence|discriminate]).
  assert (E : lsum (map (fun x : obs => (x i - a) * (x j - b)) xs) = lsum (map (fun x : obs => x i * x j) xs) - b * lsum (map (fun x : obs => x i) xs) - a * lsum (map (fun x : obs => x j) xs) + INR (length xs) * (a * b)).
  { clear. induction xs as [|x l IH]; [cbn; ring|]. change (length (x :: l)) with (S (length l)). rewrite S_INR. cbn [map lsum]. rewrite IH. ring. }
  rewrite E. field. exact N0.
Qed.

Lemma draw_map {Om} (X : nat -> Om -> obs) (g : obs -> obs) n o : map g (draw X n o) = draw (fun t o => g (X t o)) n o.
Proof. unfold draw. rewrite map_map. reflexivity. Qed.
Lemma sum_lsum_mean (xs : list obs) (g : obs -> R) : lsum (map g xs) / INR (length xs) = mean_of (map (fun x _ => g x) xs) 0%nat.
Proof. unfold mean_of. rewrite map_map, map_length. reflexivity. Qed.

(** ** C112 *)
(** EmpiricalCovariance is consistent: after n rows of white noise the probability of an error of [eps] or more in an entry of location_ or of covariance_ is O(1/n). *)
Theorem C112_empirical_consistent {Om} (oms : list Om) w p N X mu Sig k diff (rows : Om -> list (vec NumX)) n eps :
  probability oms w -> steady_noise p N oms w X mu Sig k -> (1 <= n <= N)%nat -> (forall o, observes p diff (rows o) (draw X n o)) -> 0 < eps ->
  exists (M : Om -> obs) (V : Om -> rmat),
    (forall o, exists e, fitted_on (C := Empirical) (mkEmpP diff) (rows o) e /\ location_ e = Ok (fv p (M o)) /\ covariance_ e = Ok (fm p p (V o))) /\
    (forall i, (i < p)%nat -> off_by oms w (fun o => M o i) (mu i) eps <= Sig i i / (eps * eps) / INR n) /\
    (forall i j, (i < p)%nat -> (j < p)%nat -> off_by oms w (fun o => V o i j) (Sig i j) eps <= (4 * k / (eps * eps) + (Sig i i + Sig j j) / eps) / INR n).
Proof.
  intros HP [HW HZ] Hn Ho He. destruct (moments oms w p N X mu Sig HW 1 N ltac:(lra) ltac:(lia) n Hn) as (_ & _ & A3 & _). assert (N0 : 0 < INR n) by (apply lt_0_INR; lia).
  assert (EM : forall o i, ewa_mean 1 N (draw X n o) i = mean_of (draw X n o) i) by (intros; apply ewa_mean_burning; rewrite draw_length; lia).
  assert (VM : forall i j, (i < p)%nat -> (j < p)%nat -> expect oms w (fun o => (mean_of (draw X n o) i - mu i) * (mean_of (draw X n o) j - mu j)) = Sig i j / INR n).
  { intros i j Hi Hj. transitivity (noise 1 N n * Sig i j); [rewrite <- (A3 i j Hi Hj); apply E_ext; intros; now rewrite !EM|]. unfold noise. rewrite (proj2 (Nat.leb_le n N)) by lia. field. lra. }
  assert (E2 : 0 < eps * eps) by (apply Rmult_lt_0_compat; lra).
  exists (fun o => mean_of (draw X n o)), (fun o => pcov_of (draw X n o)). split; [|split].
  - intros o. assert (Hx : draw X n o <> []) by (intros E; pose proof (draw_length X n o) as L; rewrite E in L; cbn in L; lia).
    destruct (Empirical_run p diff (rows o) (draw X n o) (Ho o) Hx) as (e & E1 & _ & E3 & E4 & _). exists e. auto.
  - intros i Hi. eapply Rle_trans; [apply chebyshev; auto|]. cbv beta. rewrite VM by auto. right. field. lra.
  - intros i j Hi Hj. destruct (HZ i j Hi Hj) as (kij & Hk & HZij). set (Z := fun t (o : Om) (_ : nat) => (X t o i - mu i) * (X t o j - mu j)) in *.
    destruct (moments oms w 1 N Z (fun _ => Sig i j) (fun _ _ => kij) HZij 1 N ltac:(lra) ltac:(lia) n Hn) as (_ & _ & B3 & _). specialize (B3 0%nat 0%nat ltac:(lia) ltac:(lia)).
    assert (EZ : forall o, ewa_mean 1 N (draw Z n o) 0%nat = mean_of (draw Z n o) 0%nat) by (intros; apply ewa_mean_burning; rewrite draw_length; lia).
    eapply Rle_trans; [apply (off_by_split oms w HP _ (fun o => mean_of (draw Z n o) 0%nat) (fun o => (mean_of (draw X n o) i - mu i) * (mean_of (draw X n o) j - mu j)) (Sig i j) eps He)|].
    + intros o _. assert (Hx : draw X n o <> []) by (intros E; pose proof (draw_length X n o) as L; rewrite E in L; cbn in L; lia).
      rewrite (pcov_about _ i j (mu i) (mu j) Hx), sum_lsum_mean, draw_map. unfold Z. ring.
    + assert (C1 : off_by oms w (fun o => mean_of (draw Z n o) 0%nat) (Sig i j) (eps / 2) <= 4 * k / (eps * eps) / INR n).
      { eapply Rle_trans; [apply chebyshev; auto; lra|]. cbv beta. assert (Q : expect oms w (fun o => (mean_of (draw Z n o) 0%nat - Sig i j) * (mean_of (draw Z n o) 0%nat - Sig i j)) = kij / INR n).
        { transitivity (noise 1 N n * kij); [rewrite <- B3; apply E_ext; intros; now rewrite !EZ|]. unfold noise. rewrite (proj2 (Nat.leb_le n N)) by lia. field. lra. }
        rewrite Q. replace (kij / INR n / (eps / 2 * (eps / 2))) with (kij * (4 / (eps * eps) / INR n)) by (field; lra). replace (4 * k / (eps * eps) / INR n) with (k * (4 / (eps * eps) / INR n)) by (field; lra).
        apply Rmult_le_compat_r; [|exact Hk]. apply Rlt_le, Rdiv_lt_0_compat; [apply Rdiv_lt_0_compat; lra|exact N0]. }
      assert (C2 : off_by oms w (fun o => (mean_of (draw X n o) i - mu i) * (mean_of (draw X n o) j - mu j)) 0 (eps / 2) <= (Sig i i + Sig j j) / eps / INR n).
      { eapply Rle_trans; [apply markov; auto; lra|]. cbv beta.
        apply Rle_trans with (expect oms w (fun o => / 2 * ((mean_of (draw X n o) i - mu i) * (mean_of (draw X n o) i - mu i) + (mean_of (draw X n o) j - mu j) * (mean_of (draw X n o) j - mu j))) / (eps / 2)).
        - unfold Rdiv. apply Rmult_le_compat_r; [left; apply Rinv_0_lt_compat; lra|]. apply E_le; auto. intros o _. rewrite Rminus_0_r, Rabs_mult.
          set (a := mean_of (draw X n o) i - mu i). set (b := mean_of (draw X n o) j - mu j). clearbody a b. pose proof (Rle_0_sqr (Rabs a - Rabs b)) as Q. unfold Rsqr in Q.
          assert (Qa : Rabs a * Rabs a = a * a) by (rewrite <- Rabs_mult; apply Rabs_right; pose proof (Rle_0_sqr a) as S; unfold Rsqr in S; lra).
          assert (Qb : Rabs b * Rabs b = b * b) by (rewrite <- Rabs_mult; apply Rabs_right; pose proof (Rle_0_sqr b) as S; unfold Rsqr in S; lra). lra.
        - rewrite E_scal, E_plus, !VM by auto. right. field. lra. }
      unfold Rdiv in *. rewrite Rmult_plus_distr_r. lra.
Qed.
(** EwaCovariance is not: the mean squared error of location_ never falls below a fixed share of the variance, and with observations within B of their mean the probability
    of an error of [eps] or more stays away from 0, however much data there is. *)
Definition ewa_floor (r : R) : R := Rmin (/ INR (burn_len r)) (r / (2 - r)).
Lemma Rabs_def2' x b : Rabs x <= b -> - b <= x <= b.
Proof. intros H. pose proof (Rle_abs x). pose proof (Rle_abs (- x)) as Q. rewrite Rabs_Ropp in Q. lra. Qed.
Lemma noise_floor r n : 0 < r <= 1 -> (1 <= n)%nat -> ewa_floor r <= noise r (burn_len r) n.
Proof.
  intros Hr Hn. unfold ewa_floor, noise. pose proof (burn_len_bounds r) as Hb. set (nb := burn_len r) in *. clearbody nb. destruct (Nat.leb_spec n nb) as [H|H].
  - eapply Rle_trans; [apply Rmin_l|]. apply Rinv_le_contravar; [apply lt_0_INR; lia|now apply le_INR].
  - pose proof (pow_le (1 - r) (2 * (n - nb)) ltac:(lra)) as Q0. pose proof (pow_incr (1 - r) 1 (2 * (n - nb)) ltac:(lra)) as Q1. rewrite pow1 in Q1. set (q := (1 - r) ^ (2 * (n - nb))) in *.
    set (a := r / (2 - r)). set (b := / INR nb). pose proof (Rmin_l b a) as M1. pose proof (Rmin_r b a) as M2. set (m := Rmin b a) in *. clearbody q a b m.
    replace (a + q * (b - a)) with (q * b + (1 - q) * a) by ring. assert (q * m <= q * b) by (apply Rmult_le_compat_l; lra). assert ((1 - q) * m <= (1 - q) * a) by (apply Rmult_le_compat_l; lra). lra.
Qed.
Lemma ewa_floor_pos r : 0 < r <= 1 -> 0 < ewa_floor r.
Proof. intros Hr. unfold ewa_floor. pose proof (burn_len_bounds r) as Hb. apply Rmin_glb_lt; [apply Rinv_0_lt_compat, lt_0_INR; lia|apply Rdiv_lt_0_compat; lra]. Qed.
Theorem C112_ewa_floor {Om} (oms : list Om) w p N X mu Sig r diff (rows : Om -> list (vec NumX)) n : 0 < r <= 1 ->
  probability oms w -> white_noise p N oms w X mu Sig -> (1 <= n <= N)%nat -> (forall o, observes p diff (rows o) (draw X n o)) ->
  exists (M : Om -> obs),
    (forall o, exists e, fitted_on (C := Ewa) (EWA r diff) (rows o) e /\ location_ e = Ok (fv p (M o))) /\
    (forall i, (i < p)%nat -> ewa_floor r * Sig i i <= expect oms w (fun o => (M o i - mu i) * (M o i - mu i))) /\
    (forall i B eps, (i < p)%nat -> 0 < B -> 0 < eps -> (forall t o, (t < n)%nat -> In o oms -> Rabs (X t o i - mu i) <= B) ->
       (ewa_floor r * Sig i i - eps * eps) / (B * B) <= off_by oms w (fun o => M o i) (mu i) eps).
Proof.
  intros Hr HP HW Hn Ho. pose proof (burn_len_bounds r) as Hb. destruct (moments oms w p N X mu Sig HW r (burn_len r) Hr ltac:(lia) n Hn) as (_ & _ & A3 & _).
  assert (Hx : forall o, draw X n o <> []) by (intros o E; pose proof (draw_length X n o) as L; rewrite E in L; cbn in L; lia).
  assert (S0 : forall i, (i < p)%nat -> 0 <= Sig i i).
  { intros i Hi. pose proof (proj2 HW 0%nat 0%nat i i ltac:(lia) ltac:(lia) Hi Hi) as Q. cbn [Nat.eqb] in Q. rewrite <- Q. apply E_nonneg; auto. intros o _. apply Rle_0_sqr. }
  assert (F : forall i, (i < p)%nat -> ewa_floor r * Sig i i <= expect oms w (fun o => (ewa_mean r (burn_len r) (draw X n o) i - mu i) * (ewa_mean r (burn_len r) (draw X n o) i - mu i))).
  { intros i Hi. rewrite A3 by auto. apply Rmult_le_compat_r; [auto|]. apply noise_floor; auto; lia. }
  exists (fun o => ewa_mean r (burn_len r) (draw X n o)). split; [|split; [exact F|]].
  - intros o. destruct (Ewa_run p r diff (rows o) (draw X n o) ltac:(lra) (Ho o) (Hx o)) as (e & E1 & _ & E3 & _). exists e. auto.
  - intros i B eps Hi HB He HX. specialize (F i Hi). assert (B2 : 0 < B * B) by (apply Rmult_lt_0_compat; lra). assert (E2 : 0 < eps * eps) by (apply Rmult_lt_0_compat; lra).
    assert (U : expect oms w (fun o => (ewa_mean r (burn_len r) (draw X n o) i - mu i) * (ewa_mean r (burn_len r) (draw X n o) i - mu i)) <=
      B * B * off_by oms w (fun o => ewa_mean r (burn_len r) (draw X n o) i) (mu i) eps + eps * eps).
    { rewrite <- (E_const oms w (eps * eps) (proj2 HP)). unfold off_by. rewrite <- E_scal, <- E_plus. apply E_le; auto. intros o Io.
      assert (A : Rabs (ewa_mean r (burn_len r) (draw X n o) i - mu i) <= B).
      { apply Rabs_le. assert (mu i - B <= ewa_mean r (burn_len r) (draw X n o) i <= mu i + B); [|lra]. apply ewa_mean_range; auto; [lra|lia|]. intros x Ix. unfold draw in Ix. apply in_map_iff in Ix. destruct Ix as (t & <- & It).
        apply in_seq in It. specialize (HX t o ltac:(lia) Io). apply Rabs_def2' in HX. lra. }
      set (d := ewa_mean r (burn_len r) (draw X n o) i - mu i) in *. clearbody d. assert (Q : d * d = Rabs d * Rabs d) by (rewrite <- Rabs_mult; symmetry; apply Rabs_right; pose proof (Rle_0_sqr d) as S; unfold Rsqr in S; lra).
      rewrite Q. pose proof (Rabs_pos d) as P. destruct (Rle_dec _ _) as [H|H].
      - assert (Rabs d * Rabs d <= B * B) by (apply Rmult_le_compat; lra). lra.
      - assert (Rabs d * Rabs d <= eps * eps) by (apply Rmult_le_compat; lra). lra. }
    apply Rmult_le_reg_r with (B * B); [lra|]. unfold Rdiv. rewrite Rmult_assoc, Rinv_l, Rmult_1_r by lra. lra.
Qed.
(** the premises are met: n independent signs *)
Fixpoint signs (n : nat) : list (list R) := match n with O => [[]] | S m => (map (cons 1) (signs m) ++ map (cons (-1)) (signs m))%list end.
Lemma signs_expect n (f : list R -> R) : expect (signs (S n)) (fun _ => / 2 ^ S n) f =
  / 2 * (expect (signs n) (fun _ => / 2 ^ n) (fun o => f (1 :: o)) + expect (signs n) (fun _ => / 2 ^ n) (fun o => f (-1 :: o))).
Proof.
  unfold expect. cbn [signs]. rewrite map_app, lsum_app, !map_map, Rmult_plus_distr_l, <- !lsum_map_scal. pose proof (pow_nonzero 2 n ltac:(lra)) as P. cbn [pow].
  f_equal; apply lsum_map_ext; intros; field; exact P.
Qed.
Lemma signs_one n : expect (signs n) (fun _ => / 2 ^ n) (fun _ => 1) = 1.
Proof. induction n as [|n IH]; [unfold expect; cbn; field|]. rewrite signs_expect, IH. field. Qed.
Lemma signs_zero n t : (t < n)%nat -> expect (signs n) (fun _ => / 2 ^ n) (fun o => nth t o 0) = 0.
Proof.
  revert t. induction n as [|n IH]; intros t Ht; [lia|]. rewrite signs_expect. destruct t as [|t]; cbn [nth].
  - rewrite !(E_const _ _ _ (signs_one n)). field.
  - rewrite IH by lia. field.
Qed.
Lemma signs_pair n : forall s t, (s < n)%nat -> (t < n)%nat -> expect (signs n) (fun _ => / 2 ^ n) (fun o => nth s o 0 * nth t o 0) = if Nat.eqb s t then 1 else 0.
Proof.
  induction n as [|n IH]; intros s t Hs Ht; [lia|]. rewrite signs_expect. destruct s as [|s], t as [|t]; cbn [nth Nat.eqb].
  - rewrite !(E_const _ _ _ (signs_one n)). field.
  - rewrite !E_scal, signs_zero by lia. field.
  - rewrite (E_ext _ _ _ (fun o => 1 * nth s o 0)), (E_ext _ _ (fun o => nth s o 0 * -1) (fun o => -1 * nth s o 0)) by (intros; ring). rewrite !E_scal, signs_zero by lia. field.
  - rewrite !IH by lia. destruct (Nat.eqb s t); field.
Qed.
Lemma signs_sq n : forall o t, In o (signs n) -> (t < n)%nat -> nth t o 0 * nth t o 0 = 1.
Proof.
  induction n as [|n IH]; intros o t Io Ht; [lia|]. cbn [signs] in Io. apply in_app_or in Io. destruct t as [|t];
    destruct Io as [Io|Io]; apply in_map_iff in Io; destruct Io as (o' & <- & Io'); cbn [nth]; try lra; apply IH; auto; lia.
Qed.
Lemma E_ext_in {Om} (oms : list Om) w f g : (forall o, In o oms -> f o = g o) -> expect oms w f = expect oms w g.
Proof. intros H. apply lsum_map_ext. intros o Ho. now rewrite H. Qed.
Example C112_witness n : (1 <= n)%nat ->
  probability (signs n) (fun _ => / 2 ^ n) /\ steady_noise 2 n (signs n) (fun _ => / 2 ^ n) (fun t o _ => nth t o 0) (fun _ => 0) (fun _ _ => 1) 0 /\
  (forall t o, (t < n)%nat -> In o (signs n) -> Rabs (nth t o 0 - 0) <= 1) /\ 0 < ewa_floor (1 / 20) * 1.
Proof.
  intros Hn. split; [|split; [split; [split|]|split]].
  - split; [|apply signs_one]. intros o _. left. apply Rinv_0_lt_compat, pow_lt. lra.
  - intros t i Ht _. now apply signs_zero.
  - intros s t i j Hs Ht _ _. rewrite <- (signs_pair n s t Hs Ht). apply E_ext. intros; ring.
  - intros i j _ _. exists 0. split; [lra|]. split.
    + intros t _ Ht _. rewrite <- (signs_one n). apply E_ext_in. intros o Ho. transitivity (nth t o 0 * nth t o 0); [ring|now apply (signs_sq n)].
    + intros s t _ _ Hs Ht _ _. rewrite (E_ext_in _ _ _ (fun _ => 0 * 0)); [rewrite E_scal; destruct (Nat.eqb s t); ring|].
      intros o Ho. replace ((nth s o 0 - 0) * (nth s o 0 - 0)) with 1 by (symmetry; transitivity (nth s o 0 * nth s o 0); [ring|now apply (signs_sq n)]). replace ((nth t o 0 - 0) * (nth t o 0 - 0)) with 1 by (symmetry; transitivity (nth t o 0 * nth t o 0); [ring|now apply (signs_sq n)]). ring.
  - intros t o Ht Ho. rewrite Rminus_0_r. pose proof (signs_sq n o t Ho Ht) as Q. apply Rabs_le. nra.
  - rewrite Rmult_1_r. apply ewa_floor_pos. lra.
Qed.

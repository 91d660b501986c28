(** * Rounding lemmas for binary64 (proof infrastructure for Props_Float.v) *)
From Coq Require Import Reals ZArith List Bool Lia Lra Psatz.
From Flocq Require Import Core BinarySingleNaN Relative Plus_error.
From Verif Require Import Num NumBin.
Local Open Scope R_scope.

(** representable reals, rounding to nearest even, unit roundoff 2^-53, half the smallest positive float *)
Definition fexp64 := FLT_exp (-1074) 53.
Definition fmt (x : R) : Prop := generic_format radix2 fexp64 x.
Definition rnd (x : R) : R := round radix2 fexp64 ZnearestE x.
Definition u53 : R := / 2 ^ 53.
Definition eta : R := bpow radix2 (-1075).

Global Instance valid64 : Valid_exp fexp64.
Proof. apply FLT_exp_valid. reflexivity. Qed.
Global Instance prec53i : Prec_gt_0 53. Proof. reflexivity. Qed.

Lemma rnd_mono x y : x <= y -> rnd x <= rnd y.
Proof. apply round_le; typeclasses eauto. Qed.
Lemma rnd_id x : fmt x -> rnd x = x.
Proof. apply round_generic. typeclasses eauto. Qed.
Lemma fmt_rnd x : fmt (rnd x).
Proof. apply generic_format_round; typeclasses eauto. Qed.
Lemma fmt_0 : fmt 0.
Proof. apply generic_format_0. Qed.
Lemma rnd_0 : rnd 0 = 0.
Proof. apply rnd_id, fmt_0. Qed.
Lemma fmt_opp x : fmt x -> fmt (- x).
Proof. apply generic_format_opp. Qed.
Lemma rnd_opp x : rnd (- x) = - rnd x.
Proof. unfold rnd. apply round_NE_opp. Qed.
Lemma fmt_bpow e : (-1074 <= e)%Z -> fmt (bpow radix2 e).
Proof. intros H. apply generic_format_FLT_bpow; auto; reflexivity. Qed.
Lemma rnd_le x b : fmt b -> x <= b -> rnd x <= b.
Proof. intros H1 H2. rewrite <- (rnd_id b H1). now apply rnd_mono. Qed.
Lemma rnd_ge x b : fmt b -> b <= x -> b <= rnd x.
Proof. intros H1 H2. rewrite <- (rnd_id b H1). now apply rnd_mono. Qed.
Lemma rnd_abs_le x b : fmt b -> Rabs x <= b -> Rabs (rnd x) <= b.
Proof.
  intros H1 H2. apply Rabs_le. apply Rabs_le_inv in H2. destruct H2. split; [|now apply rnd_le]. apply rnd_ge; [now apply fmt_opp|auto].
Qed.
Lemma rnd_nonneg x : 0 <= x -> 0 <= rnd x.
Proof. intros. apply rnd_ge; auto. apply fmt_0. Qed.
Lemma rnd_nonpos x : x <= 0 -> rnd x <= 0.
Proof. intros. apply rnd_le; auto. apply fmt_0. Qed.

Lemma u53_pos : 0 < u53. Proof. unfold u53. lra. Qed.
Lemma eta_pos : 0 < eta. Proof. apply bpow_gt_0. Qed.
Lemma half_ulp_eq : / 2 * bpow radix2 (- 53 + 1) = u53.
Proof. unfold u53. simpl. lra. Qed.
(** any rounding: relative error 2^-53 and absolute error 2^-1075 *)
Lemma rnd_err x : Rabs (rnd x - x) <= u53 * Rabs x + eta.
Proof.
  destruct (error_N_FLT radix2 (-1074) 53 ltac:(lia) (fun n => negb (Z.even n)) x) as (e & h & H1 & H2 & _ & H4).
  unfold rnd, fexp64. rewrite H4. assert (H1' : Rabs e <= u53) by (rewrite <- half_ulp_eq; exact H1).
  assert (E : / 2 * bpow radix2 (-1074) = eta) by (unfold eta; change (-1074)%Z with (1 + -1075)%Z; rewrite bpow_plus; simpl (bpow radix2 1); lra).
  rewrite E in H2. replace (x * (1 + e) + h - x) with (x * e + h) by ring.
  eapply Rle_trans; [apply Rabs_triang|]. apply Rplus_le_compat; auto. rewrite Rabs_mult, Rmult_comm. apply Rmult_le_compat_r; auto. apply Rabs_pos.
Qed.
(** no underflow error for numbers from 2^-1022 on *)
Lemma rnd_err_normal x : bpow radix2 (-1022) <= Rabs x -> Rabs (rnd x - x) <= u53 * Rabs x.
Proof.
  intros H. rewrite <- half_ulp_eq. apply (relative_error_N_FLT radix2 (-1074) 53); [lia|]. exact H.
Qed.
(** sums and differences of floats never underflow *)
Lemma rnd_add_err x y : fmt x -> fmt y -> Rabs (rnd (x + y) - (x + y)) <= u53 * Rabs (x + y).
Proof.
  intros Hx Hy. destruct (FLT_plus_error_N_ex radix2 (-1074) 53 (fun n => negb (Z.even n)) x y Hx Hy) as (e & H1 & H2).
  unfold rnd, fexp64. rewrite H2. replace ((x + y) * (1 + e) - (x + y)) with ((x + y) * e) by ring.
  rewrite Rabs_mult, Rmult_comm. apply Rmult_le_compat_r; [apply Rabs_pos|]. eapply Rle_trans; [exact H1|].
  assert (E : u_ro radix2 53 = u53) by exact half_ulp_eq. rewrite E. pose proof u53_pos as P.
  apply Rmult_le_reg_r with (1 + u53); [lra|]. unfold Rdiv. rewrite Rmult_assoc, Rinv_l by lra. nra.
Qed.
Lemma rnd_sub_err x y : fmt x -> fmt y -> Rabs (rnd (x - y) - (x - y)) <= u53 * Rabs (x - y).
Proof. intros Hx Hy. apply (rnd_add_err x (- y)); auto. now apply fmt_opp. Qed.
(** small differences are exact *)
Lemma fmt_sub_small x y : fmt x -> fmt y -> Rabs (x - y) <= bpow radix2 (-1021) -> fmt (x - y).
Proof. intros Hx Hy H. apply (FLT_format_plus_small radix2 (-1074) 53 x (- y)); auto. now apply fmt_opp. Qed.

(** A Welford step m + (x - m)/n, n >= 2, lands between m and x. *)
Lemma step_between_up x m n : fmt x -> fmt m -> 2 <= n -> m <= x ->
  0 <= rnd (rnd (x - m) / n) <= x - m.
Proof.
  intros Hx Hm Hn H. set (y := x - m) in *. assert (Y : 0 <= y) by (unfold y; lra).
  assert (Z0 : 0 <= rnd y) by now apply rnd_nonneg.
  assert (Q : rnd y / n <= rnd y / 2). { unfold Rdiv. apply Rmult_le_compat_l; auto. apply Rinv_le_contravar; lra. }
  split. { apply rnd_nonneg. unfold Rdiv. apply Rmult_le_pos; auto. left. apply Rinv_0_lt_compat. lra. }
  apply Rle_trans with (rnd (rnd y / 2)); [now apply rnd_mono|].
  destruct (Rle_or_lt y (bpow radix2 (-1021))) as [S|B].
  - assert (E : rnd y = y). { apply rnd_id. apply fmt_sub_small; auto. rewrite Rabs_right; [exact S|now apply Rle_ge]. }
    rewrite E in *. rewrite <- E at 2. apply rnd_mono. lra.
  - pose proof (rnd_sub_err x m Hx Hm) as E1. fold y in E1. rewrite (Rabs_right y) in E1 by now apply Rle_ge.
    assert (B1 : bpow radix2 (-1021) <= rnd y) by (apply rnd_ge; [apply fmt_bpow; lia|lra]).
    assert (B2 : bpow radix2 (-1021) = 2 * bpow radix2 (-1022)).
    { change (-1021)%Z with (1 + -1022)%Z. rewrite bpow_plus. reflexivity. }
    pose proof (rnd_err_normal (rnd y / 2)) as E2. rewrite Rabs_right in E2 by lra.
    specialize (E2 ltac:(lra)). apply Rabs_le_inv in E1. apply Rabs_le_inv in E2. unfold u53 in *. lra.
Qed.
Lemma step_between_down x m n : fmt x -> fmt m -> 2 <= n -> x <= m ->
  x - m <= rnd (rnd (x - m) / n) <= 0.
Proof.
  intros Hx Hm Hn H. pose proof (step_between_up (- x) (- m) n (fmt_opp _ Hx) (fmt_opp _ Hm) Hn ltac:(lra)) as K.
  replace (- x - - m) with (- (x - m)) in K by ring. rewrite rnd_opp in K.
  replace (- rnd (x - m) / n) with (- (rnd (x - m) / n)) in K by (unfold Rdiv; ring). rewrite rnd_opp in K. lra.
Qed.

(** ** The operations of the carrier on finite floats *)
Definition fin (x : NumB) : Prop := is_finite x = true.
Definition val (x : NumB) : R := B2R x.
Definition big : R := bpow radix2 1023.
Lemma val_fmt x : fmt (val x).
Proof. apply (generic_format_B2R 53 1024 x). Qed.
Lemma fmt_big : fmt big. Proof. apply fmt_bpow. lia. Qed.
Lemma big_lt : big < bpow radix2 1024. Proof. apply bpow_lt. lia. Qed.
Lemma big_pos : 0 < big. Proof. apply bpow_gt_0. Qed.

Lemma no_overflow x : Rabs x <= big -> Rlt_bool (Rabs (rnd x)) (bpow radix2 1024) = true.
Proof. intros H. apply Rlt_bool_true. eapply Rle_lt_trans; [apply rnd_abs_le; [apply fmt_big|exact H]|apply big_lt]. Qed.
Lemma fin_add a b : fin a -> fin b -> Rabs (val a + val b) <= big -> fin (nadd a b) /\ val (nadd a b) = rnd (val a + val b).
Proof.
  intros Ha Hb H. pose proof (Bplus_correct 53 1024 prec53 prec_emax mode_NE a b Ha Hb) as K.
  change (round radix2 (SpecFloat.fexp 53 1024) (round_mode mode_NE)) with rnd in K.
  rewrite no_overflow in K by exact H. destruct K as (K1 & K2 & _). split; [exact K2|exact K1].
Qed.
Lemma fin_sub a b : fin a -> fin b -> Rabs (val a - val b) <= big -> fin (nsub a b) /\ val (nsub a b) = rnd (val a - val b).
Proof.
  intros Ha Hb H. pose proof (Bminus_correct 53 1024 prec53 prec_emax mode_NE a b Ha Hb) as K.
  change (round radix2 (SpecFloat.fexp 53 1024) (round_mode mode_NE)) with rnd in K.
  rewrite no_overflow in K by exact H. destruct K as (K1 & K2 & _). split; [exact K2|exact K1].
Qed.
Lemma fin_mul a b : fin a -> fin b -> Rabs (val a * val b) <= big -> fin (nmul a b) /\ val (nmul a b) = rnd (val a * val b).
Proof.
  intros Ha Hb H. pose proof (Bmult_correct 53 1024 prec53 prec_emax mode_NE a b) as K.
  change (round radix2 (SpecFloat.fexp 53 1024) (round_mode mode_NE)) with rnd in K.
  rewrite no_overflow in K by exact H. destruct K as (K1 & K2 & _). split; [|exact K1]. unfold fin in *. rewrite Ha, Hb in K2. exact K2.
Qed.
Lemma fin_div a b : fin a -> fin b -> val b <> 0 -> Rabs (val a / val b) <= big -> fin (ndiv a b) /\ val (ndiv a b) = rnd (val a / val b).
Proof.
  intros Ha Hb Hz H. pose proof (Bdiv_correct 53 1024 prec53 prec_emax mode_NE a b Hz) as K.
  change (round radix2 (SpecFloat.fexp 53 1024) (round_mode mode_NE)) with rnd in K.
  rewrite no_overflow in K by exact H. destruct K as (K1 & K2 & _). split; [|exact K1]. unfold fin in *. rewrite Ha in K2. exact K2.
Qed.
(** integers up to 2^53 are exact *)
Lemma fin_ofZ z : (Z.abs z <= 2 ^ 53)%Z -> fin (nofZ z) /\ val (nofZ (n := NumB) z) = IZR z.
Proof.
  intros H. assert (F : fmt (IZR z)).
  { apply generic_format_FLT. destruct (Z.eq_dec (Z.abs z) (2 ^ 53)) as [E|E].
    - apply (FLT_spec radix2 (-1074) 53 (IZR z) (Float radix2 (z / 2 ^ 53) 53)).
      + unfold F2R. cbn [Fnum Fexp]. rewrite <- IZR_Zpower by lia. rewrite <- mult_IZR. f_equal.
        change (radix_val radix2 ^ 53)%Z with (2 ^ 53)%Z. destruct (Z.abs_eq_or_opp z) as [A|A]; rewrite A in E; [now rewrite E|].
        assert (z = - 2 ^ 53)%Z as -> by lia. reflexivity.
      + cbn [Fnum]. destruct (Z.abs_eq_or_opp z) as [A|A]; rewrite A in E; [rewrite E; reflexivity|]. assert (z = - 2 ^ 53)%Z as -> by lia. reflexivity.
      + cbn. lia.
    - apply (FLT_spec radix2 (-1074) 53 (IZR z) (Float radix2 z 0)).
      + unfold F2R. cbn [Fnum Fexp bpow]. lra.
      + cbn [Fnum]. change (radix_val radix2 ^ 53)%Z with (2 ^ 53)%Z. lia.
      + cbn. lia. }
  pose proof (binary_normalize_correct 53 1024 prec53 prec_emax mode_NE z 0 false) as K. cbv zeta in K.
  change (round radix2 (SpecFloat.fexp 53 1024) (round_mode mode_NE)) with rnd in K.
  assert (E : F2R (Float radix2 z 0) = IZR z) by (unfold F2R; cbn [Fnum Fexp bpow]; lra). rewrite E in K.
  rewrite no_overflow in K.
  - destruct K as (K1 & K2 & _). split; [exact K2|]. rewrite (rnd_id _ F) in K1. exact K1.
  - rewrite <- abs_IZR. unfold big. rewrite <- (IZR_Zpower radix2 1023) by (apply Z.leb_le; reflexivity). apply IZR_le.
    eapply Z.le_trans; [exact H|]. apply (Z.pow_le_mono_r 2 53 1023); lia.
Qed.

(** * Rounding errors of one Welford step and of one exponentially weighted step (proof infrastructure for Props_Float.v) *)
From Coq Require Import Reals ZArith List Bool Lia Lra Psatz.
From Flocq Require Import Core BinarySingleNaN.
From Verif Require Import Num NumBin FloatBase FloatRun.
Local Open Scope R_scope.

Lemma abs_mul a b A B : Rabs a <= A -> Rabs b <= B -> Rabs (a * b) <= A * B.
Proof. intros H1 H2. rewrite Rabs_mult. apply Rmult_le_compat; auto; apply Rabs_pos. Qed.
Lemma abs_add a b A B : Rabs a <= A -> Rabs b <= B -> Rabs (a + b) <= A + B.
Proof. intros H1 H2. eapply Rle_trans; [apply Rabs_triang|]. lra. Qed.
Lemma abs_sub a b A B : Rabs a <= A -> Rabs b <= B -> Rabs (a - b) <= A + B.
Proof. intros H1 H2. replace (a - b) with (a + - b) by ring. apply abs_add; auto. now rewrite Rabs_Ropp. Qed.
Lemma abs_bound a b D B : Rabs (a - b) <= D -> Rabs b <= B -> Rabs a <= D + B.
Proof. intros H1 H2. replace a with ((a - b) + b) by ring. now apply abs_add. Qed.
Lemma abs_chain a b c D E : Rabs (a - b) <= D -> Rabs (b - c) <= E -> Rabs (a - c) <= D + E.
Proof. intros H1 H2. replace (a - c) with ((a - b) + (b - c)) by ring. now apply abs_add. Qed.
Lemma abs_div_ge1 a n A : 1 <= n -> Rabs a <= A -> Rabs (a / n) <= A.
Proof.
  intros Hn H. unfold Rdiv. assert (0 < / n <= 1) by (split; [apply Rinv_0_lt_compat; lra|rewrite <- Rinv_1; apply Rinv_le_contravar; lra]).
  rewrite Rabs_mult, (Rabs_right (/ n)) by lra. pose proof (Rabs_pos a). nra.
Qed.
Lemma abs_div_ge2 a n A : 2 <= n -> Rabs a <= A -> Rabs (a / n) <= A / 2.
Proof.
  intros Hn H. replace (a / n) with ((a / 2) / (n / 2)) by (field; lra). apply abs_div_ge1; [lra|].
  unfold Rdiv. rewrite Rabs_mult, (Rabs_right (/ 2)) by lra. lra.
Qed.

(** magnitudes for which nothing overflows and underflow is negligible *)
Definition mag_lo : R := bpow radix2 (-400).
Definition mag_hi : R := bpow radix2 480.
Lemma pow2_60 : bpow radix2 60 = 1152921504606846976. Proof. reflexivity. Qed.
Lemma hi_sq M : 0 <= M <= mag_hi -> 1152921504606846976 * (M * M) <= big.
Proof.
  intros [H0 H]. unfold mag_hi in H. assert (K : M * M <= bpow radix2 960).
  { change 960%Z with (480 + 480)%Z. rewrite bpow_plus. apply Rmult_le_compat; auto. }
  rewrite <- pow2_60. apply Rle_trans with (bpow radix2 60 * bpow radix2 960).
  - apply Rmult_le_compat_l; auto. apply bpow_ge_0.
  - rewrite <- bpow_plus. apply bpow_le. lia.
Qed.
Lemma hi_lin M : 0 <= M <= mag_hi -> 1152921504606846976 * M <= big.
Proof.
  intros [H0 H]. unfold mag_hi in H. rewrite <- pow2_60. apply Rle_trans with (bpow radix2 60 * bpow radix2 480).
  - apply Rmult_le_compat_l; auto. apply bpow_ge_0.
  - rewrite <- bpow_plus. apply bpow_le. lia.
Qed.
(** [eta] is below 2^-20 of 2^-53 of M, and of M^2 *)
Lemma eta_lin M : mag_lo <= M -> eta * 1048576 <= u53 * M.
Proof.
  intros H. apply Rle_trans with (u53 * mag_lo); [|apply Rmult_le_compat_l; [left; apply u53_pos|exact H]].
  assert (E : u53 = bpow radix2 (-53)) by (unfold u53; simpl; lra). rewrite E. unfold eta, mag_lo.
  change 1048576 with (bpow radix2 20). rewrite <- !bpow_plus. apply bpow_le. lia.
Qed.
Lemma eta_sq M : mag_lo <= M -> eta * 1048576 <= u53 * (M * M).
Proof.
  intros H. assert (L : 0 < mag_lo) by apply bpow_gt_0.
  apply Rle_trans with (u53 * (mag_lo * mag_lo)); [|apply Rmult_le_compat_l; [left; apply u53_pos|apply Rmult_le_compat; lra]].
  assert (E : u53 = bpow radix2 (-53)) by (unfold u53; simpl; lra). rewrite E. unfold eta, mag_lo.
  change 1048576 with (bpow radix2 20). rewrite <- !bpow_plus. apply bpow_le. lia.
Qed.
Lemma u53_val : u53 = / 9007199254740992. Proof. unfold u53. lra. Qed.
Lemma eta_one M : mag_lo <= M -> eta <= M.
Proof. intros H. pose proof (eta_lin M H). pose proof u53_val. pose proof eta_pos. assert (0 < mag_lo) by apply bpow_gt_0. nra. Qed.

(** The counters *)
Lemma fin_nofn n : (Z.of_nat n <= 2 ^ 53)%Z -> fin (nofn (N := NumB) n) /\ val (nofn (N := NumB) n) = INR n.
Proof. intros H. unfold nofn. destruct (fin_ofZ (Z.of_nat n)) as [F V]; [lia|]. split; auto. rewrite V. now rewrite <- INR_IZR_INZ. Qed.
Lemma fin_2 : fin (nofZ (n := NumB) 2) /\ val (nofZ (n := NumB) 2) = 2.
Proof. destruct (fin_ofZ 2) as [F V]; [apply Z.leb_le; reflexivity|]. auto. Qed.
Lemma fin_1 : fin (n1 (N := NumB)) /\ val (n1 (N := NumB)) = 1.
Proof. destruct (fin_ofZ 1) as [F V]; [apply Z.leb_le; reflexivity|]. auto. Qed.
Lemma fin_0 : fin (n0 (N := NumB)) /\ val (n0 (N := NumB)) = 0.
Proof. destruct (fin_ofZ 0) as [F V]; [apply Z.leb_le; reflexivity|]. auto. Qed.

(** ** The running mean *)
Lemma wf_mean_first m x : fin m -> val m = 0 -> fin x -> Rabs (val x) <= big ->
  fin (wf_mean (nofn 1) m x) /\ val (wf_mean (nofn 1) m x) = val x.
Proof.
  intros Fm Vm Fx B. unfold wf_mean. destruct (fin_nofn 1 ltac:(lia)) as [F1 V1]. cbn [INR] in V1.
  destruct (fin_sub x m Fx Fm) as [F2 V2]; [rewrite Vm, Rminus_0_r; exact B|].
  rewrite Vm, Rminus_0_r, (rnd_id _ (val_fmt x)) in V2.
  destruct (fin_div (nsub x m) (nofn 1) F2 F1) as [F3 V3].
  { rewrite V1. lra. }
  { rewrite V1, V2. unfold Rdiv. rewrite Rinv_1, Rmult_1_r. exact B. }
  rewrite V1, V2 in V3. unfold Rdiv in V3. rewrite Rinv_1, Rmult_1_r, (rnd_id _ (val_fmt x)) in V3.
  destruct (fin_add m _ Fm F3) as [F4 V4]; [rewrite Vm, V3, Rplus_0_l; exact B|].
  rewrite Vm, V3, Rplus_0_l, (rnd_id _ (val_fmt x)) in V4. auto.
Qed.
Lemma wf_mean_next n m x B : (2 <= n)%nat -> (Z.of_nat n <= 2 ^ 53)%Z -> fin m -> fin x ->
  Rabs (val m) <= B -> Rabs (val x) <= B -> 2 * B <= big ->
  fin (wf_mean (nofn n) m x) /\
  val (wf_mean (nofn n) m x) = rnd (val m + rnd (rnd (val x - val m) / INR n)) /\
  (Rmin (val m) (val x) <= val m + rnd (rnd (val x - val m) / INR n) <= Rmax (val m) (val x)).
Proof.
  intros Hn Hn' Fm Fx Bm Bx HB. unfold wf_mean. destruct (fin_nofn n Hn') as [F1 V1].
  assert (N2 : 2 <= INR n) by (apply le_INR in Hn; simpl in Hn; lra).
  assert (Bs : Rabs (val x - val m) <= big) by (eapply Rle_trans; [apply (abs_sub _ _ B B); auto|lra]).
  destruct (fin_sub x m Fx Fm Bs) as [F2 V2].
  assert (Bd : Rabs (val (nsub x m)) <= big) by (rewrite V2; apply rnd_abs_le; [apply fmt_big|exact Bs]).
  destruct (fin_div (nsub x m) (nofn n) F2 F1) as [F3 V3].
  { rewrite V1. lra. } { rewrite V1. apply abs_div_ge1; [lra|exact Bd]. }
  rewrite V1, V2 in V3.
  assert (Btw : Rmin (val m) (val x) <= val m + rnd (rnd (val x - val m) / INR n) <= Rmax (val m) (val x)).
  { destruct (Rle_or_lt (val m) (val x)) as [L|L].
    - pose proof (step_between_up (val x) (val m) (INR n) (val_fmt x) (val_fmt m) N2 L). rewrite Rmin_left, Rmax_right by lra. lra.
    - pose proof (step_between_down (val x) (val m) (INR n) (val_fmt x) (val_fmt m) N2 ltac:(lra)). rewrite Rmin_right, Rmax_left by lra. lra. }
  assert (Bb : Rabs (val m + rnd (rnd (val x - val m) / INR n)) <= B).
  { apply Rabs_le. apply Rabs_le_inv in Bm. apply Rabs_le_inv in Bx. unfold Rmin, Rmax in Btw. destruct (Rle_dec (val m) (val x)); lra. }
  destruct (fin_add m _ Fm F3) as [F4 V4]; [rewrite V3; eapply Rle_trans; [exact Bb|]; pose proof (Rabs_pos (val m)); lra|].
  rewrite V3 in V4. auto.
Qed.
Lemma fmt_Rmin x y : fmt x -> fmt y -> fmt (Rmin x y).
Proof. intros. unfold Rmin. now destruct (Rle_dec x y). Qed.
Lemma fmt_Rmax x y : fmt x -> fmt y -> fmt (Rmax x y).
Proof. intros. unfold Rmax. now destruct (Rle_dec x y). Qed.
Lemma wf_mean_between n m x B : (2 <= n)%nat -> (Z.of_nat n <= 2 ^ 53)%Z -> fin m -> fin x ->
  Rabs (val m) <= B -> Rabs (val x) <= B -> 2 * B <= big ->
  fin (wf_mean (nofn n) m x) /\ Rmin (val m) (val x) <= val (wf_mean (nofn n) m x) <= Rmax (val m) (val x).
Proof.
  intros Hn Hn' Fm Fx Bm Bx HB. destruct (wf_mean_next n m x B Hn Hn' Fm Fx Bm Bx HB) as (F & V & K).
  split; [exact F|]. rewrite V. split.
  - apply rnd_ge; [apply fmt_Rmin; apply val_fmt|lra].
  - apply rnd_le; [apply fmt_Rmax; apply val_fmt|lra].
Qed.

Section MagG.
  Context (M : R) (MP : 0 < M) (ET : eta * 1048576 <= u53 * M).
  Let u := u53.
  Lemma rnd_sub_M x m : fmt x -> fmt m -> Rabs x <= M -> Rabs m <= M ->
    Rabs (rnd (x - m) - (x - m)) <= 2 * (u * M) /\ Rabs (rnd (x - m)) <= 21 / 10 * M.
  Proof.
    intros Fx Fm Bx Bm. pose proof (abs_sub x m M M Bx Bm) as B. pose proof (rnd_sub_err x m Fx Fm) as E.
    pose proof u53_pos. assert (E' : Rabs (rnd (x - m) - (x - m)) <= 2 * (u * M)) by (unfold u; nra).
    split; auto. pose proof (abs_bound _ _ _ _ E' B). unfold u in *. rewrite u53_val in *. lra.
  Qed.
  Lemma mean_step_err n m x : 2 <= n -> fmt m -> fmt x -> Rabs m <= M -> Rabs x <= M ->
    Rabs (m + rnd (rnd (x - m) / n)) <= M ->
    Rabs (rnd (m + rnd (rnd (x - m) / n)) - (m + (x - m) / n)) <= 4 * (u * M).
  Proof.
    intros Hn Fm Fx Bm Bx Bb. destruct (rnd_sub_M x m Fx Fm Bx Bm) as [E1 B1]. set (d := rnd (x - m)) in *.
    pose proof (abs_div_ge2 d n _ Hn B1) as B2. pose proof (rnd_err (d / n)) as E2. set (q := rnd (d / n)) in *.
    pose proof (abs_div_ge2 _ n _ Hn E1) as E3. pose proof u53_pos as U.
    pose proof (rnd_add_err m q Fm (fmt_rnd _)) as E4.
    assert (E4' : Rabs (rnd (m + q) - (m + q)) <= u * M) by (unfold u; nra).
    assert (E2' : Rabs (q - d / n) <= 11 / 10 * (u * M)) by (unfold u in *; nra).
    assert (E5 : Rabs ((m + q) - (m + (x - m) / n)) <= 11 / 10 * (u * M) + 2 * (u * M) / 2).
    { replace ((m + q) - (m + (x - m) / n)) with ((q - d / n) + (d - (x - m)) / n) by (field; lra). now apply abs_add. }
    pose proof (abs_chain _ _ _ _ _ E4' E5). assert (0 < u * M) by (unfold u; nra). lra.
  Qed.
End MagG.
Section Mag.
  Context (M : R) (ML : mag_lo <= M).
  Let Mpos : 0 < M. Proof. apply Rlt_le_trans with mag_lo; [apply bpow_gt_0|exact ML]. Qed.
  Let u := u53.
  (** one covariance entry *)
  Lemma cov_step_err n k c xi mi xj mj : 1 <= n -> 0 <= k <= n ->
    fmt c -> fmt xi -> fmt mi -> fmt xj -> fmt mj ->
    Rabs c <= 5 * (M * M) -> Rabs xi <= M -> Rabs mi <= M -> Rabs xj <= M -> Rabs mj <= M ->
    let a1 := rnd (c * k) in let a := rnd (a1 / n) in
    let d := rnd (xi - mi) in let e := rnd (xj - mj) in
    let g := rnd (e / n) in let w := rnd (d * g) in
    Rabs (c * k) <= n * (5 * (M * M)) /\ Rabs (a1 / n) <= 6 * (M * M) /\
    Rabs (xi - mi) <= 2 * M /\ Rabs (xj - mj) <= 2 * M /\ Rabs (e / n) <= 3 * M /\ Rabs (d * g) <= 5 * (M * M) /\
    Rabs (a + w) <= 12 * (M * M) /\
    Rabs (rnd (a + w) - (c * k / n + (xi - mi) * (xj - mj) / n)) <= 48 * (u * (M * M)).
  Proof.
    intros Hn Hk Fc Fxi Fmi Fxj Fmj Bc Bxi Bmi Bxj Bmj. cbv zeta.
    pose proof (eta_lin M ML) as ET. pose proof (eta_sq M ML) as ES. pose proof eta_pos as EP. pose proof u53_pos as U.
    assert (U2 : 9007199254740992 * u = 1) by (unfold u; rewrite u53_val; lra).
    assert (MM : 0 < M * M) by nra. set (S := M * M) in *.
    assert (UM : 9007199254740992 * (u * M) = M) by (rewrite <- Rmult_assoc, U2; ring).
    assert (US : 9007199254740992 * (u * S) = S) by (rewrite <- Rmult_assoc, U2; ring).
    fold u in U, ET, ES. assert (UMp : 0 < u * M) by nra. assert (USp : 0 < u * S) by nra.
    set (a1 := rnd (c * k)). set (a := rnd (a1 / n)).
    destruct (rnd_sub_M M Mpos ET xi mi Fxi Fmi Bxi Bmi) as [Ed Bd]. fold u in Ed. set (d := rnd (xi - mi)) in *.
    destruct (rnd_sub_M M Mpos ET xj mj Fxj Fmj Bxj Bmj) as [Ee Be]. fold u in Ee. set (e := rnd (xj - mj)) in *.
    set (g := rnd (e / n)). set (w := rnd (d * g)).
    assert (Hkn : Rabs (k / n) <= 1).
    { rewrite Rabs_right; [|apply Rle_ge; unfold Rdiv; apply Rmult_le_pos; [lra|left; apply Rinv_0_lt_compat; lra]].
      apply Rmult_le_reg_r with n; [lra|]. unfold Rdiv. rewrite Rmult_assoc, Rinv_l by lra. lra. }
    assert (B1 : Rabs (c * k) <= n * (5 * S)).
    { rewrite Rabs_mult, (Rabs_right k) by lra. pose proof (Rabs_pos c). nra. }
    (* a *)
    assert (Bck : Rabs (c * k / n) <= 5 * S).
    { replace (c * k / n) with (c * (k / n)) by (unfold Rdiv; ring). pose proof (abs_mul c (k / n) _ 1 Bc Hkn). lra. }
    pose proof (rnd_err (c * k)) as E1. fold a1 in E1. fold u in E1.
    assert (Ea1 : Rabs (a1 / n - c * k / n) <= 51 / 10 * (u * S)).
    { replace (a1 / n - c * k / n) with ((a1 - c * k) / n) by (unfold Rdiv; ring).
      unfold Rdiv. rewrite Rabs_mult. assert (I : 0 < / n <= 1) by (split; [apply Rinv_0_lt_compat; lra|rewrite <- Rinv_1; apply Rinv_le_contravar; lra]).
      rewrite (Rabs_right (/ n)) by lra. apply Rle_trans with ((u * (n * (5 * S)) + eta) * / n).
      - apply Rmult_le_compat_r; [lra|]. eapply Rle_trans; [exact E1|]. nra.
      - replace ((u * (n * (5 * S)) + eta) * / n) with (5 * (u * S) + eta * / n) by (field; lra). nra. }
    assert (Ba1 : Rabs (a1 / n) <= 51 / 10 * S) by (pose proof (abs_bound _ _ _ _ Ea1 Bck); lra).
    pose proof (rnd_err (a1 / n)) as E2. fold a in E2. fold u in E2.
    assert (Ea : Rabs (a - a1 / n) <= 52 / 10 * (u * S)) by nra.
    pose proof (abs_chain _ _ _ _ _ Ea Ea1) as EA. pose proof (abs_bound _ _ _ _ EA Bck) as BA.
    (* g *)
    pose proof (abs_div_ge1 e n _ Hn Be) as Ben. pose proof (rnd_err (e / n)) as E3. fold g in E3. fold u in E3.
    assert (Eg : Rabs (g - e / n) <= 22 / 10 * (u * M)) by nra.
    pose proof (abs_bound _ _ _ _ Eg Ben) as Bg0. assert (Bg : Rabs g <= 211 / 100 * M) by lra.
    pose proof (abs_sub xi mi M M Bxi Bmi) as Bsi. pose proof (abs_sub xj mj M M Bxj Bmj) as Bsj.
    pose proof (abs_div_ge1 _ n _ Hn Bsj) as Bsjn.
    assert (Een : Rabs (e / n - (xj - mj) / n) <= 2 * (u * M)).
    { replace (e / n - (xj - mj) / n) with ((e - (xj - mj)) / n) by (unfold Rdiv; ring). now apply abs_div_ge1. }
    assert (EG : Rabs (g - (xj - mj) / n) <= 42 / 10 * (u * M)) by (pose proof (abs_chain _ _ _ _ _ Eg Een); lra).
    (* w *)
    assert (Bdg : Rabs (d * g) <= 45 / 10 * S).
    { pose proof (abs_mul d g _ _ Bd Bg) as K. unfold S in *. nra. }
    assert (Edg : Rabs (d * g - (xi - mi) * ((xj - mj) / n)) <= 13 * (u * S)).
    { replace (d * g - (xi - mi) * ((xj - mj) / n)) with (d * (g - (xj - mj) / n) + (d - (xi - mi)) * ((xj - mj) / n)) by ring.
      pose proof (abs_mul d _ _ _ Bd EG) as K1. pose proof (abs_mul _ _ _ _ Ed Bsjn) as K2.
      pose proof (abs_add _ _ _ _ K1 K2) as K. unfold S in *. nra. }
    pose proof (rnd_err (d * g)) as E5. fold w in E5. fold u in E5.
    assert (Ew : Rabs (w - d * g) <= 46 / 10 * (u * S)) by nra.
    pose proof (abs_chain _ _ _ _ _ Ew Edg) as EW. pose proof (abs_bound _ _ _ _ Ew Bdg) as BW.
    pose proof (abs_add _ _ _ _ BA BW) as BAW.
    pose proof (rnd_add_err a w (fmt_rnd _) (fmt_rnd _)) as E6. fold u in E6.
    assert (ES' : Rabs (rnd (a + w) - (a + w)) <= 10 * (u * S)) by nra.
    assert (ET' : Rabs ((a + w) - (c * k / n + (xi - mi) * (xj - mj) / n)) <= 103 / 10 * (u * S) + (176 / 10) * (u * S)).
    { replace ((a + w) - (c * k / n + (xi - mi) * (xj - mj) / n)) with ((a - c * k / n) + (w - (xi - mi) * ((xj - mj) / n))) by (unfold Rdiv; ring).
      pose proof (abs_add _ _ _ _ EA EW). lra. }
    pose proof (abs_chain _ _ _ _ _ ES' ET') as EF.
    repeat split; try assumption; try lra.
  Qed.
End Mag.

(** * Accuracy of the exponentially weighted mean and covariance in binary64 (proof infrastructure for Props_Float.v) *)
From Coq Require Import Reals ZArith List Bool Lia Lra Psatz.
From Flocq Require Import Core BinarySingleNaN.
From Verif Require Import Num NumBin Numpy StateModel Spec RMat RealSpec EwaReal EmpFacts FloatBase FloatRun FloatErr FloatAcc.
Import ListNotations.
Local Open Scope R_scope.

(** ** ceil and the burn-in length *)
Lemma b_ceil_spec x : fin x -> exists z, b_ceil x = Ok z /\ IZR z - 1 < val x <= IZR z.
Proof.
  destruct x as [s|s| |s m e H]; intros F; try discriminate.
  - exists 0%Z. split; [reflexivity|]. unfold val. simpl. lra.
  - cbn [b_ceil]. set (v := if s then Zneg m else Zpos m). eexists. split; [reflexivity|].
    assert (V : val (B754_finite s m e H) = IZR v * bpow radix2 e).
    { unfold val, v. cbn [B2R]. unfold F2R, cond_Zopp. cbn [Fnum Fexp]. now destruct s. }
    rewrite V. clear V F H. destruct (Z.leb_spec 0 e) as [L|L].
    + assert (E : IZR (v * 2 ^ e) = IZR v * bpow radix2 e) by (rewrite mult_IZR; f_equal; rewrite <- IZR_Zpower by lia; reflexivity).
      rewrite E. lra.
    + set (q := (2 ^ (- e))%Z). assert (Q : (0 < q)%Z) by (apply Z.pow_pos_nonneg; lia).
      assert (E : bpow radix2 e = / IZR q).
      { replace e with (- (- e))%Z at 1 by lia. rewrite bpow_opp. f_equal. unfold q. rewrite <- IZR_Zpower by lia. reflexivity. }
      rewrite E. pose proof (Z.div_mod (- v) q ltac:(lia)) as D. pose proof (Z.mod_pos_bound (- v) q Q) as Mb.
      set (k := ((- v) / q)%Z) in *. set (t := ((- v) mod q)%Z) in *.
      assert (Ev : IZR v = - (IZR q * IZR k + IZR t)) by (rewrite <- mult_IZR, <- plus_IZR, <- opp_IZR; f_equal; lia).
      assert (Qr : 0 < IZR q) by (apply IZR_lt; exact Q). destruct Mb as [M1 M2]. apply IZR_le in M1. apply IZR_lt in M2.
      rewrite opp_IZR, Ev. replace (- (IZR q * IZR k + IZR t) * / IZR q) with (- IZR k - IZR t / IZR q) by (field; lra).
      assert (T : 0 <= IZR t / IZR q < 1).
      { unfold Rdiv. split; [apply Rmult_le_pos; [lra|left; apply Rinv_0_lt_compat; lra]|].
        apply Rmult_lt_reg_r with (IZR q); [lra|]. rewrite Rmult_assoc, Rinv_l by lra. lra. }
      lra.
Qed.
Lemma leb_false_pos (r : NumB) : fin r -> 0 < val r -> nleb r (n0 (N := NumB)) = false.
Proof.
  intros F H. destruct fin_0 as [F0 V0]. change (nleb r (n0 (N := NumB))) with (Bleb r (n0 (N := NumB))).
  pose proof (Bleb_correct 53 1024 r (n0 (N := NumB)) F F0) as K. etransitivity; [exact K|].
  unfold val in *. rewrite V0. apply Rle_bool_false. exact H.
Qed.
Definition r_lo : R := bpow radix2 (-30).
Lemma fmt_IZR z : (Z.abs z <= 2 ^ 53)%Z -> fmt (IZR z).
Proof. intros H. destruct (fin_ofZ z H) as [_ V]. rewrite <- V. apply val_fmt. Qed.
(** ceil of the rounded quotient differs by at most one from the exact ceiling, so does the burn-in length *)
Lemma burn_ok (r : NumB) : fin r -> r_lo <= val r <= 1 ->
  exists nb, ewa_burn_n r = Ok nb /\ (5 <= nb <= 250)%nat /\ (nb <= burn_len (val r) <= nb + 1)%nat.
Proof.
  intros F [Lo Hi]. assert (P : 0 < val r) by (apply Rlt_le_trans with r_lo; [apply bpow_gt_0|exact Lo]).
  unfold ewa_burn_n, py_div. rewrite leb_false_pos by auto. cbn [andb bind].
  destruct fin_1 as [F1 V1]. set (q := 1 / val r).
  assert (Q1 : 1 <= q). { unfold q. apply Rmult_le_reg_r with (val r); auto. unfold Rdiv. rewrite Rmult_assoc, Rinv_l by lra. lra. }
  assert (Q2 : q <= bpow radix2 30).
  { unfold q, Rdiv. rewrite Rmult_1_l. replace (bpow radix2 30) with (/ r_lo) by (unfold r_lo; simpl; lra).
    apply Rinv_le_contravar; [apply bpow_gt_0|exact Lo]. }
  destruct (fin_div n1 r F1 F) as [Fq Vq].
  { lra. } { rewrite V1. fold q. rewrite Rabs_right by lra. eapply Rle_trans; [exact Q2|]. apply bpow_le. lia. }
  rewrite V1 in Vq. fold q in Vq.
  change (nceil (ndiv n1 r)) with (b_ceil (ndiv (n := NumB) n1 r)).
  destruct (b_ceil_spec _ Fq) as (z & Ez & Bz). rewrite Ez. cbn [bind]. exists (Z.to_nat (Z.min 250 (Z.max 5 z))).
  split; [reflexivity|]. split; [split; [apply Nat2Z.inj_le|apply Nat2Z.inj_le]; rewrite Z2Nat.id by lia; lia|].
  unfold burn_len. fold q. set (y := (1 - up (- q))%Z). pose proof (ceil_spec q) as Cq. fold y in Cq.
  rewrite Vq in Bz. change (bpow radix2 30) with 1073741824 in Q2.
  assert (Yb : (1 <= y <= 1073741825)%Z).
  { split; [assert (IZR 0 < IZR y) by lra; apply lt_IZR in H; lia|]. assert (IZR y < IZR 1073741826) by lra. apply lt_IZR in H. lia. }
  assert (P1 : (2 ^ 53 = 9007199254740992)%Z) by reflexivity.
  assert (U : rnd q <= IZR y) by (apply rnd_le; [apply fmt_IZR; lia|lra]).
  assert (L : IZR (y - 1) <= rnd q) by (apply rnd_ge; [apply fmt_IZR; lia|rewrite minus_IZR; lra]).
  rewrite minus_IZR in L.
  assert (Z1 : (z <= y)%Z). { assert (IZR z < IZR (y + 1)) by (rewrite plus_IZR; lra). apply lt_IZR in H. lia. }
  assert (Z2 : (y - 1 <= z)%Z). { assert (K : IZR (y - 1) <= IZR z) by (rewrite minus_IZR; lra). now apply le_IZR in K. }
  lia.
Qed.

(** ** One exponentially weighted step *)
Section EwStepG.
  Context (M : R) (MP : 0 < M) (ET : eta * 1048576 <= u53 * M) (HL : 1000 * M <= big).
  Context (r : NumB) (Fr : fin r) (r0 : 0 < val r) (r1 : val r <= 1).
  Lemma one_minus_r : fin (nsub n1 r) /\ val (nsub n1 r) = rnd (1 - val r) /\
    Rabs (val (nsub n1 r) - (1 - val r)) <= u53 /\ 0 <= val (nsub n1 r) <= 1.
  Proof.
    destruct fin_1 as [F1 V1]. destruct (fin_sub n1 r F1 Fr) as [F V].
    { rewrite V1. rewrite Rabs_right by lra. apply Rle_trans with (bpow radix2 0); [simpl; lra|apply bpow_le; lia]. }
    rewrite V1 in V. split; [exact F|]. split; [exact V|]. rewrite V. split.
    - assert (F1' : fmt 1) by (rewrite <- V1; apply val_fmt).
      pose proof (rnd_sub_err 1 (val r) F1' (val_fmt r)) as E. rewrite (Rabs_right (1 - val r)) in E by lra. pose proof u53_pos. nra.
    - split; [apply rnd_nonneg; lra|]. apply rnd_le; [rewrite <- V1; apply val_fmt|lra].
  Qed.
  Lemma ew_mean_ok m x : fin m -> fin x -> Rabs (val m) <= 11 / 10 * M -> Rabs (val x) <= M ->
    fin (ew_mean r m x) /\ Rabs (val (ew_mean r m x) - ((1 - val r) * val m + val r * val x)) <= 6 * (u53 * M).
  Proof.
    intros Fm Fx Bm Bx. destruct one_minus_r as (Fs & Vs & Es & Bs). unfold ew_mean.
    set (s := val (nsub n1 r)) in *. assert (As : Rabs s <= 1) by (rewrite Rabs_right; lra).
    assert (Ar : Rabs (val r) <= 1) by (rewrite Rabs_right; lra).
    pose proof (abs_mul _ _ _ _ As Bm) as B1. pose proof (abs_mul _ _ _ _ Ar Bx) as B2.
    pose proof u53_pos as UP. pose proof u53_val as UV. pose proof eta_pos as EP.
    assert (UM : 0 < u53 * M <= M / 1000) by (split; [nra|rewrite UV; lra]).
    destruct (fin_mul _ m Fs Fm) as [F1 V1]; [fold s; lra|]. fold s in V1.
    destruct (fin_mul _ x Fr Fx) as [F2 V2]; [lra|].
    pose proof (rnd_err (s * val m)) as E1. pose proof (rnd_err (val r * val x)) as E2.
    assert (E1' : Rabs (rnd (s * val m) - s * val m) <= 12 / 10 * (u53 * M)) by nra.
    assert (E2' : Rabs (rnd (val r * val x) - val r * val x) <= 11 / 10 * (u53 * M)) by nra.
    pose proof (abs_bound _ _ _ _ E1' B1) as B3. pose proof (abs_bound _ _ _ _ E2' B2) as B4.
    destruct (fin_add _ _ F1 F2) as [F3 V3]; [rewrite V1, V2; eapply Rle_trans; [apply (abs_add _ _ _ _ B3 B4)|]; lra|].
    split; [exact F3|]. rewrite V3, V1, V2.
    pose proof (rnd_add_err (rnd (s * val m)) (rnd (val r * val x)) (fmt_rnd _) (fmt_rnd _)) as E3.
    pose proof (abs_add _ _ _ _ B3 B4) as B5.
    assert (E3' : Rabs (rnd (rnd (s * val m) + rnd (val r * val x)) - (rnd (s * val m) + rnd (val r * val x))) <= 22 / 10 * (u53 * M)) by nra.
    pose proof (abs_mul _ _ _ _ Es Bm) as E4.
    assert (E5 : Rabs (rnd (s * val m) + rnd (val r * val x) - ((1 - val r) * val m + val r * val x))
       <= (12 / 10 * (u53 * M) + u53 * (11 / 10 * M)) + 11 / 10 * (u53 * M)).
    { replace (rnd (s * val m) + rnd (val r * val x) - ((1 - val r) * val m + val r * val x)) with
        (((rnd (s * val m) - s * val m) + (s - (1 - val r)) * val m) + (rnd (val r * val x) - val r * val x)) by ring.
      apply abs_add; [apply abs_add|]; auto. }
    pose proof (abs_chain _ _ _ _ _ E3' E5). lra.
  Qed.
End EwStepG.
Section EwStep.
  Context (M : R) (ML : mag_lo <= M) (MH : M <= mag_hi).
  Context (r : NumB) (Fr : fin r) (r0 : 0 < val r) (r1 : val r <= 1).
  Let MP : 0 < M := Mpos M ML.
  Let HS := hiS M ML MH.
  Let HL := hiL M ML MH.
  Lemma rnd_sub_M' x m : fmt x -> fmt m -> Rabs x <= M -> Rabs m <= 11 / 10 * M ->
    Rabs (x - m) <= 21 / 10 * M /\ Rabs (rnd (x - m) - (x - m)) <= 21 / 10 * (u53 * M) /\ Rabs (rnd (x - m)) <= 211 / 100 * M.
  Proof.
    intros Fx Fm Bx Bm. pose proof (abs_sub x m _ _ Bx Bm) as B. pose proof (rnd_sub_err x m Fx Fm) as E.
    pose proof u53_pos as UP. pose proof u53_val as UV. assert (UM : 0 < u53 * M <= M / 10000) by (split; [nra|rewrite UV; lra]).
    assert (E' : Rabs (rnd (x - m) - (x - m)) <= 21 / 10 * (u53 * M)) by nra.
    pose proof (abs_bound _ _ _ _ E' B). repeat split; lra.
  Qed.
  Lemma ew_cov_ok c xi mi xj mj : fin c -> fin xi -> fin mi -> fin xj -> fin mj ->
    Rabs (val c) <= 5 * (M * M) -> Rabs (val xi) <= M -> Rabs (val mi) <= 11 / 10 * M -> Rabs (val xj) <= M -> Rabs (val mj) <= 11 / 10 * M ->
    fin (ew_cov r c xi mi xj mj) /\
    val (ew_cov r c xi mi xj mj) = rnd (rnd (rnd (1 - val r) * val c) + rnd (val r * rnd (rnd (val xi - val mi) * rnd (val xj - val mj)))) /\
    Rabs (val (ew_cov r c xi mi xj mj) - ((1 - val r) * val c + val r * ((val xi - val mi) * (val xj - val mj)))) <= 48 * (u53 * (M * M)).
  Proof.
    intros Fc Fxi Fmi Fxj Fmj Bc Bxi Bmi Bxj Bmj. destruct (one_minus_r r Fr r0 r1) as (Fs & Vs & Es & Bs). unfold ew_cov.
    rewrite <- Vs. set (s := val (nsub n1 r)) in *. assert (As : Rabs s <= 1) by (rewrite Rabs_right; lra).
    assert (Ar : Rabs (val r) <= 1) by (rewrite Rabs_right; lra).
    pose proof u53_pos as UP. pose proof u53_val as UV. pose proof (eta_sq M ML) as ET. pose proof eta_pos as EP.
    assert (SP : 0 < M * M) by nra.
    assert (US : 0 < u53 * (M * M) <= M * M / 10000) by (split; [nra|rewrite UV; lra]).
    destruct (rnd_sub_M' _ _ (val_fmt xi) (val_fmt mi) Bxi Bmi) as (Si & Edi & Bdi).
    destruct (rnd_sub_M' _ _ (val_fmt xj) (val_fmt mj) Bxj Bmj) as (Sj & Edj & Bdj).
    destruct (fin_sub xi mi Fxi Fmi) as [Fdi Vdi]; [lra|]. destruct (fin_sub xj mj Fxj Fmj) as [Fdj Vdj]; [lra|].
    set (di := rnd (val xi - val mi)) in *. set (dj := rnd (val xj - val mj)) in *.
    assert (Bp : Rabs (di * dj) <= 446 / 100 * (M * M)) by (pose proof (abs_mul _ _ _ _ Bdi Bdj); nra).
    destruct (fin_mul _ _ Fdi Fdj) as [Fp Vp]; [rewrite Vdi, Vdj; lra|]. rewrite Vdi, Vdj in Vp.
    pose proof (rnd_err (di * dj)) as Ep. set (w0 := rnd (di * dj)) in *.
    assert (Ep' : Rabs (w0 - di * dj) <= 447 / 100 * (u53 * (M * M))) by nra.
    assert (Bw0 : Rabs w0 <= 45 / 10 * (M * M)) by (pose proof (abs_bound _ _ _ _ Ep' Bp); lra).
    pose proof (abs_mul _ _ _ _ Ar Bw0) as Brw. destruct (fin_mul _ _ Fr Fp) as [Fw Vw]; [rewrite Vp; lra|]. rewrite Vp in Vw.
    pose proof (rnd_err (val r * w0)) as Ew. set (w := rnd (val r * w0)) in *.
    assert (Ew' : Rabs (w - val r * w0) <= 46 / 10 * (u53 * (M * M))) by nra.
    assert (Bw : Rabs w <= 46 / 10 * (M * M)) by (pose proof (abs_bound _ _ _ _ Ew' Brw); lra).
    pose proof (abs_mul _ _ _ _ As Bc) as Bsc. destruct (fin_mul _ c Fs Fc) as [Ft Vt]; [fold s; lra|]. fold s in Vt.
    pose proof (rnd_err (s * val c)) as Et. set (t := rnd (s * val c)) in *.
    assert (Et' : Rabs (t - s * val c) <= 51 / 10 * (u53 * (M * M))) by nra.
    assert (Bt : Rabs t <= 51 / 10 * (M * M)) by (pose proof (abs_bound _ _ _ _ Et' Bsc); lra).
    pose proof (abs_add _ _ _ _ Bt Bw) as Btw. destruct (fin_add _ _ Ft Fw) as [Fo Vo]; [rewrite Vt, Vw; lra|]. rewrite Vt, Vw in Vo.
    split; [exact Fo|]. split; [exact Vo|]. rewrite Vo.
    pose proof (rnd_add_err t w (fmt_rnd _) (fmt_rnd _)) as Eo.
    assert (Eo' : Rabs (rnd (t + w) - (t + w)) <= 98 / 10 * (u53 * (M * M))) by nra.
    assert (Eprod : Rabs (di * dj - (val xi - val mi) * (val xj - val mj)) <= 9 * (u53 * (M * M))).
    { replace (di * dj - (val xi - val mi) * (val xj - val mj)) with (di * (dj - (val xj - val mj)) + (di - (val xi - val mi)) * (val xj - val mj)) by ring.
      pose proof (abs_add _ _ _ _ (abs_mul _ _ _ _ Bdi Edj) (abs_mul _ _ _ _ Edi Sj)). nra. }
    pose proof (abs_chain _ _ _ _ _ Ep' Eprod) as E1. pose proof (abs_mul _ _ _ _ Ar E1) as E2.
    pose proof (abs_mul _ _ _ _ Es Bc) as E3.
    assert (E4 : Rabs (t + w - ((1 - val r) * val c + val r * ((val xi - val mi) * (val xj - val mj)))) <= 37 * (u53 * (M * M))).
    { replace (t + w - ((1 - val r) * val c + val r * ((val xi - val mi) * (val xj - val mj)))) with
        (((t - s * val c) + (s - (1 - val r)) * val c) + ((w - val r * w0) + val r * (w0 - (val xi - val mi) * (val xj - val mj)))) by ring.
      pose proof (abs_add _ _ _ _ (abs_add _ _ _ _ Et' E3) (abs_add _ _ _ _ Ew' E2)). lra. }
    pose proof (abs_chain _ _ _ _ _ Eo' E4). lra.
  Qed.
End EwStep.

(** ** The whole stream *)
Lemma ewa_burning {N : Num} (r : N) nb xs a : (fn a + length xs <= nb)%nat -> fold_left (f_ewa r nb) xs a = fold_left f_emp xs a.
Proof.
  revert a. induction xs as [|x xs IH]; intros a H; cbn [fold_left length] in *; auto.
  assert (E : f_ewa r nb a x = f_emp a x) by (unfold f_ewa; destruct (Nat.ltb_spec (fn a) nb); [reflexivity|lia]).
  rewrite E. apply IH. cbn [f_emp fn]. lia.
Qed.
Lemma ewa_mean_burning r nb xs i : (length xs <= nb)%nat -> ewa_mean r nb xs i = mean_of xs i.
Proof. intros H. unfold ewa_mean, burn, after. rewrite firstn_all2, skipn_all2 by lia. apply ewm_nil. Qed.
Lemma ewa_cov_burning r nb xs i j : (length xs <= nb)%nat -> ewa_cov r nb xs i j = pcov_of xs i j.
Proof. intros H. unfold ewa_cov, burn, after. rewrite firstn_all2, skipn_all2 by lia. apply ewc_nil. Qed.

Section EwaAcc.
  Context (M : R) (ML : mag_lo <= M) (MH : M <= mag_hi).
  Context (r : NumB) (Fr : fin r) (rl : r_lo <= val r) (r1 : val r <= 1).
  Context (nb : nat) (nb1 : (1 <= nb)%nat) (nb2 : (nb <= 250)%nat).
  Let MP : 0 < M := Mpos M ML.
  Let HS := hiS M ML MH.
  Let HL := hiL M ML MH.
  Lemma rpos : 0 < val r. Proof. apply Rlt_le_trans with r_lo; [apply bpow_gt_0|exact rl]. Qed.
  Lemma rinv_hi : 1 <= / val r <= 1073741824.
  Proof.
    pose proof rpos. split; [rewrite <- Rinv_1; apply Rinv_le_contravar; lra|].
    replace 1073741824 with (/ r_lo) by (unfold r_lo; simpl; lra). apply Rinv_le_contravar; [apply bpow_gt_0|exact rl].
  Qed.
  Definition errm : R := 1024 * (u53 * M) / val r.
  Definition errc : R := 32768 * (u53 * (M * M)) / val r.
  Lemma errm_small : 0 < errm <= M / 10.
  Proof.
    pose proof rinv_hi. unfold errm, Rdiv. rewrite u53_val. split.
    - apply Rmult_lt_0_compat; [nra|apply Rinv_0_lt_compat, rpos].
    - apply Rle_trans with (1024 * (/ 9007199254740992 * M) * 1073741824); [apply Rmult_le_compat_l; [nra|lra]|lra].
  Qed.
  Lemma errc_small : 0 < errc <= M * M / 10.
  Proof.
    pose proof rinv_hi. assert (0 < M * M) by nra. unfold errc, Rdiv. rewrite u53_val. split.
    - apply Rmult_lt_0_compat; [nra|apply Rinv_0_lt_compat, rpos].
    - apply Rle_trans with (32768 * (/ 9007199254740992 * (M * M)) * 1073741824); [apply Rmult_le_compat_l; [nra|lra]|lra].
  Qed.
  Lemma r_errm : val r * errm = 1024 * (u53 * M). Proof. unfold errm. field. pose proof rpos. lra. Qed.
  Lemma r_errc : val r * errc = 32768 * (u53 * (M * M)). Proof. unfold errc. field. pose proof rpos. lra. Qed.

  Lemma ewa_mean_abs p xs i : within p M xs -> (i < p)%nat -> Rabs (ewa_mean (val r) nb (reals xs) i) <= M.
  Proof.
    intros H Hi. pose proof rpos. destruct xs as [|y ys].
    - cbn [reals map]. rewrite ewa_mean_burning by (simpl; lia). rewrite mean_nil, Rabs_R0. lra.
    - apply Rabs_le. apply ewa_mean_range; [lra|auto|discriminate|]. now apply (reals_within p).
  Qed.
  Lemma ewa_cov_abs p xs i j : within p M xs -> (i < p)%nat -> (j < p)%nat -> Rabs (ewa_cov (val r) nb (reals xs) i j) <= 4 * (M * M).
  Proof.
    pose proof rpos as R0. induction xs as [|x xs IH] using rev_ind; intros H Hi Hj.
    - cbn [reals map]. rewrite ewa_cov_burning by (simpl; lia). rewrite pcov_nil, Rabs_R0. nra.
    - destruct (within_snoc _ _ _ _ H) as [H1 H2]. destruct (le_lt_dec (length (xs ++ [x])) nb) as [L|L].
      + rewrite ewa_cov_burning by (rewrite reals_length; exact L). apply (pcov_abs p); auto; lra.
      + rewrite reals_snoc, ewa_cov_step. cbv zeta. rewrite reals_length. rewrite app_length in L. cbn [length] in L.
        destruct (Nat.ltb_spec (length xs) nb); [lia|]. specialize (IH H1 Hi Hj).
        pose proof (abs_mul _ _ _ _ (abs_sub _ _ _ _ (proj2 (H2 i Hi)) (ewa_mean_abs p xs i H1 Hi)) (abs_sub _ _ _ _ (proj2 (H2 j Hj)) (ewa_mean_abs p xs j H1 Hj))) as K.
        assert (A1 : Rabs (1 - val r) <= 1 - val r) by (rewrite Rabs_right; lra).
        assert (A2 : Rabs (val r) <= val r) by (rewrite Rabs_right; lra).
        pose proof (abs_add _ _ _ _ (abs_mul _ _ _ _ A1 IH) (abs_mul _ _ _ _ A2 K)). nra.
  Qed.
  Definition ewa_ok (p : nat) (xs : list (nat -> NumB)) (a : fst3 (N := NumB)) : Prop :=
    (forall i, (i < p)%nat -> fin (fm_ a i) /\ Rabs (val (fm_ a i) - ewa_mean (val r) nb (reals xs) i) <= errm) /\
    (forall i j, (i < p)%nat -> (j < p)%nat -> fin (fc a i j) /\
       Rabs (val (fc a i j) - ewa_cov (val r) nb (reals xs) i j) <= errc).
  Lemma ewa_ok_bounds p xs a : within p M xs -> ewa_ok p xs a ->
    (forall i, (i < p)%nat -> Rabs (val (fm_ a i)) <= 11 / 10 * M) /\
    (forall i j, (i < p)%nat -> (j < p)%nat -> Rabs (val (fc a i j)) <= 5 * (M * M)).
  Proof.
    intros H [A B]. split.
    - intros i Hi. destruct (A i Hi) as [_ E]. pose proof (abs_bound _ _ _ _ E (ewa_mean_abs p xs i H Hi)). pose proof errm_small. lra.
    - intros i j Hi Hj. destruct (B i j Hi Hj) as [_ E]. pose proof (abs_bound _ _ _ _ E (ewa_cov_abs p xs i j H Hi Hj)).
      pose proof errc_small. assert (0 < M * M) by nra. lra.
  Qed.
  Lemma ewa_acc p xs : within p M xs -> ewa_ok p xs (fold_left (f_ewa r nb) xs f0).
  Proof.
    pose proof rpos as R0. pose proof u53_pos as UP. assert (UM : 0 < u53 * M) by nra. assert (US : 0 < u53 * (M * M)) by nra.
    pose proof r_errm as Rm. pose proof r_errc as Rc. pose proof errm_small as Sm. pose proof errc_small as Sc.
    induction xs as [|x xs IH] using rev_ind; intros Hw.
    - destruct fin_0 as [F0 V0]. split; intros; cbn [fold_left f0 fm_ fc reals map].
      + rewrite V0, ewa_mean_burning, mean_nil, Rminus_0_r, Rabs_R0 by (simpl; lia). split; [exact F0|lra].
      + rewrite V0, ewa_cov_burning, pcov_nil, Rminus_0_r, Rabs_R0 by (simpl; lia). split; [exact F0|lra].
    - destruct (le_lt_dec (length (xs ++ [x])) nb) as [L|L].
      + rewrite ewa_burning by exact L.
        assert (LZ : (Z.of_nat (length (xs ++ [x])) <= 2 ^ 47)%Z) by (apply Z.le_trans with 250%Z; [lia|apply Z.leb_le; reflexivity]).
        destruct (emp_acc M ML MH p _ Hw LZ) as [A B].
        assert (NH : 0 <= INR (length (xs ++ [x])) <= 250) by (split; [apply pos_INR|replace 250 with (INR 250) by (simpl; lra); apply le_INR; lia]).
        split.
        * intros i Hi. destruct (A i Hi) as (F & _ & E). split; [exact F|]. rewrite ewa_mean_burning by (rewrite reals_length; exact L).
          eapply Rle_trans; [exact E|]. assert (1024 * (u53 * M) <= errm) by nra. nra.
        * intros i j Hi Hj. destruct (B i j Hi Hj) as (F & E). split; [exact F|]. rewrite ewa_cov_burning by (rewrite reals_length; exact L).
          eapply Rle_trans; [exact E|]. assert (32768 * (u53 * (M * M)) <= errc) by nra. nra.
      + destruct (within_snoc _ _ _ _ Hw) as [H1 H2]. specialize (IH H1). destruct (ewa_ok_bounds p xs _ H1 IH) as [Bm Bc].
        rewrite fold_left_app. cbn [fold_left]. set (a := fold_left (f_ewa r nb) xs f0) in *.
        assert (Na : fn a = length xs) by (unfold a; rewrite fn_ewa; reflexivity).
        rewrite app_length in L. cbn [length] in L.
        assert (E : f_ewa r nb a x = f_ew r a x) by (unfold f_ewa; rewrite Na; destruct (Nat.ltb_spec (length xs) nb); [lia|reflexivity]).
        rewrite E. destruct IH as [IHm IHc]. unfold f_ew. split.
        * intros i Hi. cbn [fm_]. destruct (IHm i Hi) as [Fm Em]. destruct (H2 i Hi) as [Fx Bx].
          destruct (ew_mean_ok M MP (eta_lin M ML) ltac:(lra) r Fr R0 r1 (fm_ a i) (x i) Fm Fx (Bm i Hi) Bx) as [F K]. split; [exact F|].
          rewrite reals_snoc, ewa_step_eq, reals_length. destruct (Nat.ltb_spec (length xs) nb); [lia|].
          set (mu := ewa_mean (val r) nb (reals xs) i) in *.
          assert (K2 : Rabs ((1 - val r) * val (fm_ a i) + val r * val (x i) - ((1 - val r) * mu + val r * val (x i))) <= (1 - val r) * errm).
          { replace ((1 - val r) * val (fm_ a i) + val r * val (x i) - ((1 - val r) * mu + val r * val (x i))) with ((1 - val r) * (val (fm_ a i) - mu)) by ring.
            apply abs_mul; [rewrite Rabs_right; lra|exact Em]. }
          pose proof (abs_chain _ _ _ _ _ K K2). nra.
        * intros i j Hi Hj. cbn [fc]. destruct (IHm i Hi) as [Fmi Emi]. destruct (IHm j Hj) as [Fmj Emj]. destruct (IHc i j Hi Hj) as [Fc Ec].
          destruct (H2 i Hi) as [Fxi Bxi]. destruct (H2 j Hj) as [Fxj Bxj].
          destruct (ew_cov_ok M ML MH r Fr R0 r1 (fc a i j) (x i) (fm_ a i) (x j) (fm_ a j) Fc Fxi Fmi Fxj Fmj (Bc i j Hi Hj) Bxi (Bm i Hi) Bxj (Bm j Hj)) as (F & _ & K).
          split; [exact F|]. rewrite reals_snoc, ewa_cov_step. cbv zeta. rewrite reals_length. destruct (Nat.ltb_spec (length xs) nb); [lia|].
          pose proof (ewa_mean_abs p xs i H1 Hi) as Bmu. pose proof (ewa_mean_abs p xs j H1 Hj) as Bnu. pose proof (Bm i Hi) as Bmi.
          set (mu := ewa_mean (val r) nb (reals xs) i) in *. set (nu := ewa_mean (val r) nb (reals xs) j) in *. set (P := ewa_cov (val r) nb (reals xs) i j) in *.
          set (mi := val (fm_ a i)) in *. set (mj := val (fm_ a j)) in *. set (c := val (fc a i j)) in *. set (xi := val (x i)) in *. set (xj := val (x j)) in *.
          assert (K2 : Rabs ((1 - val r) * c + val r * ((xi - mi) * (xj - mj)) - ((1 - val r) * P + val r * ((xi - mu) * (xj - nu))))
                       <= (1 - val r) * errc + val r * (41 / 10 * M * errm)).
          { replace ((1 - val r) * c + val r * ((xi - mi) * (xj - mj)) - ((1 - val r) * P + val r * ((xi - mu) * (xj - nu))))
              with ((1 - val r) * (c - P) + val r * ((xi - mi) * (nu - mj) + (mu - mi) * (xj - nu))) by ring.
            apply abs_add; apply abs_mul; try (rewrite Rabs_right; lra); [exact Ec|].
            rewrite Rabs_minus_sym in Emi. rewrite Rabs_minus_sym in Emj.
            pose proof (abs_add _ _ _ _ (abs_mul _ _ _ _ (abs_sub _ _ _ _ Bxi Bmi) Emj) (abs_mul _ _ _ _ Emi (abs_sub _ _ _ _ Bxj Bnu))). nra. }
          pose proof (abs_chain _ _ _ _ _ K K2) as K3.
          replace (val r * (41 / 10 * M * errm)) with (41 / 10 * M * (val r * errm)) in K3 by ring. rewrite Rm in K3. nra.
  Qed.
  Lemma ewa_var_nonneg p xs i : within p M xs -> (i < p)%nat -> 0 <= val (fc (fold_left (f_ewa r nb) xs f0) i i).
  Proof.
    pose proof rpos as R0. induction xs as [|x xs IH] using rev_ind; intros Hw Hi.
    - cbn [fold_left f0 fc]. destruct fin_0 as [_ ->]. lra.
    - destruct (le_lt_dec (length (xs ++ [x])) nb) as [L|L].
      + rewrite ewa_burning by exact L. apply (emp_var_nonneg M ML MH p); auto.
        apply Z.le_trans with 250%Z; [lia|apply Z.leb_le; reflexivity].
      + destruct (within_snoc _ _ _ _ Hw) as [H1 H2]. specialize (IH H1 Hi). pose proof (ewa_acc p xs H1) as A.
        destruct (ewa_ok_bounds p xs _ H1 A) as [Bm Bc]. destruct A as [Am Ac].
        rewrite fold_left_app. cbn [fold_left]. set (a := fold_left (f_ewa r nb) xs f0) in *.
        assert (Na : fn a = length xs) by (unfold a; rewrite fn_ewa; reflexivity).
        rewrite app_length in L. cbn [length] in L.
        assert (E : f_ewa r nb a x = f_ew r a x) by (unfold f_ewa; rewrite Na; destruct (Nat.ltb_spec (length xs) nb); [lia|reflexivity]).
        rewrite E. unfold f_ew. cbn [fc]. destruct (Am i Hi) as [Fm _]. destruct (Ac i i Hi Hi) as [Fc _]. destruct (H2 i Hi) as [Fx Bx].
        destruct (ew_cov_ok M ML MH r Fr R0 r1 (fc a i i) (x i) (fm_ a i) (x i) (fm_ a i) Fc Fx Fm Fx Fm (Bc i i Hi Hi) Bx (Bm i Hi) Bx (Bm i Hi)) as (_ & V & _).
        rewrite V. apply rnd_nonneg. apply Rplus_le_le_0_compat; apply rnd_nonneg; apply Rmult_le_pos; auto.
        * apply rnd_nonneg. lra.
        * lra.
        * apply rnd_nonneg. set (d := rnd (val (x i) - val (fm_ a i))). nra.
  Qed.
End EwaAcc.

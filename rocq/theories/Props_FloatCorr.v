(** * C107: correlation_ in IEEE binary64 *)
From Coq Require Import Reals ZArith String List Bool Lia Lra Psatz.
From Flocq Require Import Core BinarySingleNaN.
From Verif Require Import Num NumBin Numpy PyVal LinalgModel StateModel BaseModel Estimators RegistryModel Spec ListLemmas BaseProofs Shapes ClassShapes
  RMat RealSpec EwaReal EmpFacts RunAvg Props_Stream Props_Shape Props_Moment FloatSpec FloatBase FloatRun FloatErr FloatAcc FloatEwa FloatDiag Props_Float FloatBound Props_FloatShrink.
Import ListNotations.
Local Open Scope R_scope.

(** ** One entry *)
Definition corr_entry (s a b : NumB) : NumB := ndiv s (nadd (nsqrt (nmul b a)) (nlit 1 12)).
Lemma corr_tab p (f : nat -> nat -> NumB) : (1 <= p)%nat -> cov_to_corrcoef (tab2 p p f) = Ok (tab2 p p (fun i j => corr_entry (f i j) (f i i) (f j j))).
Proof.
  intros Hp. unfold cov_to_corrcoef. rewrite (diagonal_tab2 p f Hp). rewrite map_tab.
  transitivity (mdiv (tab2 p p f) (tab2 p p (fun i j => nadd (nsqrt (nmul (f j j) (f i i))) EPS))).
  - f_equal. unfold tab2 at 1. apply tab_ext. intros i Hi. apply map_tab.
  - apply bc2_tab.
Qed.
Lemma eps_acc : fin (nlit (N := NumB) 1 12) /\ b2 (-40) <= val (nlit (N := NumB) 1 12) <= 1 /\ Rabs (val (nlit (N := NumB) 1 12) - 1 / 10 ^ 12) <= u53 * (1 / 10 ^ 12).
Proof.
  destruct bd_floor as [F H]. split; [exact F|]. split; [exact H|].
  destruct (fin_ofZ 1) as [F1 V1]; [cbn; lia|]. destruct (fin_ofZ (10 ^ 12)) as [F2 V2]; [cbn; lia|].
  assert (Z12 : IZR (10 ^ 12) = 1000000000000) by reflexivity.
  destruct (fin_div (nofZ 1) (nofZ (10 ^ 12)) F1 F2) as [F3 V3].
  - rewrite V2, Z12. lra.
  - rewrite V1, V2, Z12, Rabs_right by lra. apply Rle_trans with (b2 0); [simpl; lra|apply b2_big; lia].
  - change (val (nlit (N := NumB) 1 12)) with (val (ndiv (nofZ (n := NumB) 1) (nofZ (10 ^ 12)))). rewrite V3, V1, V2, Z12.
    replace (1 / 10 ^ 12) with (1 / 1000000000000) by lra. eapply Rle_trans; [apply rnd_err_normal|].
    + rewrite Rabs_right by lra. apply Rle_trans with (b2 (-40)); [apply bpow_le; lia|simpl; lra].
    + rewrite (Rabs_right (1 / 1000000000000)) by lra. lra.
Qed.
Lemma sqrt_dist x m d : 0 <= x -> 0 <= m -> 0 <= d -> Rabs (m - x) <= u53 * x + d -> Rabs (sqrt m - sqrt x) <= u53 * sqrt x + sqrt d.
Proof.
  intros Hx Hm Hd H. pose proof u53_pos as U. assert (U1 : u53 < 1) by (unfold u53; lra). apply Rabs_le_inv in H.
  pose proof (sqrt_pos x) as Sx. pose proof (sqrt_pos m) as Sm. pose proof (sqrt_pos d) as Sd.
  pose proof (sqrt_sqrt x Hx) as Qx. pose proof (sqrt_sqrt m Hm) as Qm. pose proof (sqrt_sqrt d Hd) as Qd.
  apply Rabs_le. split.
  - (* (1-u) sqrt x <= sqrt m + sqrt d *)
    assert (K : (1 - u53) * sqrt x <= sqrt m + sqrt d); [|lra].
    apply Rsqr_incr_0; [|apply Rmult_le_pos; lra|lra]. unfold Rsqr.
    replace ((1 - u53) * sqrt x * ((1 - u53) * sqrt x)) with ((1 - u53) * (1 - u53) * (sqrt x * sqrt x)) by ring. rewrite Qx.
    assert (0 <= u53 * (1 - u53) * x) by (apply Rmult_le_pos; [apply Rmult_le_pos; lra|lra]).
    assert (0 <= sqrt m * sqrt d) by (apply Rmult_le_pos; lra).
    replace ((sqrt m + sqrt d) * (sqrt m + sqrt d)) with (m + 2 * (sqrt m * sqrt d) + d) by (transitivity (sqrt m * sqrt m + 2 * (sqrt m * sqrt d) + sqrt d * sqrt d); [rewrite Qm, Qd; reflexivity|ring]).
    replace ((1 - u53) * (1 - u53) * x) with (x - u53 * x - u53 * (1 - u53) * x) by ring. lra.
  - assert (K : sqrt m <= (1 + u53) * sqrt x + sqrt d); [|lra].
    assert (P1 : 0 <= (1 + u53) * sqrt x) by (apply Rmult_le_pos; lra).
    apply Rsqr_incr_0; [|lra|lra]. unfold Rsqr. rewrite Qm.
    assert (0 <= u53 * (1 + u53) * x) by (apply Rmult_le_pos; [apply Rmult_le_pos; lra|lra]).
    assert (0 <= (1 + u53) * sqrt x * sqrt d) by (apply Rmult_le_pos; lra).
    replace (((1 + u53) * sqrt x + sqrt d) * ((1 + u53) * sqrt x + sqrt d)) with ((1 + u53) * (1 + u53) * (sqrt x * sqrt x) + 2 * ((1 + u53) * sqrt x * sqrt d) + sqrt d * sqrt d) by ring.
    rewrite Qx, Qd. replace ((1 + u53) * (1 + u53) * x) with (x + u53 * x + u53 * (1 + u53) * x) by ring. lra.
Qed.
Lemma corr_entry_acc (s a b : NumB) : fin s -> fin a -> fin b -> 0 <= val a <= b2 500 -> 0 <= val b <= b2 500 -> Rabs (val s) <= b2 980 ->
  let q := val s / (sqrt (val a * val b) + 1 / 10 ^ 12) in
  fin (corr_entry s a b) /\ Rabs (val (corr_entry s a b) - q) <= b2 (-50) * Rabs q + b2 (-1074) /\ (0 <= val s -> 0 <= val (corr_entry s a b)).
Proof.
  intros Fs Fa Fb Ha Hb Hs q. unfold corr_entry.
  destruct eps_acc as (Fe & [Le Ue] & De). set (e := nlit (N := NumB) 1 12) in *. clearbody e.
  destruct (bd_mul 500 500 b a) as [[Fm Bm] Vm]; [split; [exact Fb|rewrite Rabs_right; lra]|split; [exact Fa|rewrite Rabs_right; lra]|lia|].
  set (m := nmul b a) in *. clearbody m. set (x := val a * val b) in *. rewrite (Rmult_comm (val b)) in Vm. fold x in Vm.
  assert (Hx : 0 <= x) by (apply Rmult_le_pos; lra).
  assert (Hm : 0 <= val m) by (rewrite Vm; now apply rnd_nonneg). rewrite Rabs_right in Bm by lra. change (500 + 500)%Z with 1000%Z in Bm.
  pose proof (rnd_err x) as E1. rewrite <- Vm, (Rabs_right x) in E1 by lra.
  pose proof (sqrt_dist x (val m) eta Hx Hm (Rlt_le _ _ eta_pos) E1) as E2.
  destruct (fin_sqrt m Fm Hm) as [Fq Vq]. set (r := nsqrt m) in *. clearbody r.
  assert (Hr : 0 <= val r) by (rewrite Vq; apply rnd_nonneg, sqrt_pos).
  assert (Br : val r <= b2 500).
  { rewrite Vq. apply rnd_le; [apply fmt_bpow; lia|]. rewrite <- (sqrt_square (b2 500)) by apply bpow_ge_0. apply sqrt_le_1_alt. rewrite <- bpow_plus. exact Bm. }
  pose proof (rnd_err (sqrt (val m))) as E3. rewrite <- Vq, (Rabs_right (sqrt (val m))) in E3 by (apply Rle_ge, sqrt_pos).
  assert (B500 : 1 <= b2 500) by (change 1 with (b2 0); apply bpow_le; lia).
  assert (B0 : 0 < b2 (-40)) by apply bpow_gt_0.
  destruct (bd_add 500 r e) as [[FD BD] VD]; [split; [exact Fq|rewrite Rabs_right; lra]|split; [exact Fe|rewrite Rabs_right; lra]|lia|].
  pose proof (rnd_add_err (val r) (val e) (val_fmt r) (val_fmt e)) as E4. rewrite <- VD, (Rabs_right (val r + val e)) in E4 by lra.
  set (D := nadd r e) in *. clearbody D.
  assert (LD : b2 (-40) <= val D) by (rewrite VD; apply rnd_ge; [apply fmt_bpow; lia|lra]).
  destruct (bd_div_lo 980 40 s D (conj Fs Hs) FD LD) as [[Fd _] Vd]; [lia|]. split; [exact Fd|]. rewrite Vd. split; [|intros S0; apply rnd_nonneg, Rmult_le_pos; [exact S0|apply Rlt_le, Rinv_0_lt_compat; lra]].
  pose proof (rnd_err (val s / val D)) as E5.
  (* the denominators are close *)
  set (y := sqrt x + 1 / 10 ^ 12) in *. set (u := u53) in *. assert (Uv : u = / 2 ^ 53) by reflexivity. assert (U0 : 0 < u) by apply u53_pos.
  assert (Ueta : sqrt eta <= u / 10 ^ 14).
  { apply Rle_trans with (b2 (-500)).
    - rewrite <- (sqrt_square (b2 (-500))) by apply bpow_ge_0. apply sqrt_le_1_alt. rewrite <- bpow_plus. apply bpow_le. lia.
    - apply Rle_trans with (b2 (-110)); [apply bpow_le; lia|]. rewrite Uv. simpl. lra. }
  assert (Eeta : eta <= u / 10 ^ 14) by (apply Rle_trans with (b2 (-110)); [apply bpow_le; lia|rewrite Uv; simpl; lra]).
  pose proof (sqrt_pos x) as Sx. pose proof (sqrt_pos (val m)) as Sm. set (sx := sqrt x) in *. set (sm := sqrt (val m)) in *. clearbody sx sm.
  apply Rabs_le_inv in E2, E3, E4, De.
  assert (D1 : Rabs (val D - y) <= 5 * u * y).
  { unfold y in *. assert (u * u <= u / 10 ^ 14) by (rewrite Uv; lra). 
    assert (A1 : 0 <= u * sx) by (apply Rmult_le_pos; lra).
    assert (A2 : u * u * sx <= u * sx / 10 ^ 14) by (assert (K : 0 <= (u / 10 ^ 14 - u * u) * sx) by (apply Rmult_le_pos; lra); lra).
    assert (M1 : u * sm <= u * sx + u * u * sx + u * sqrt eta).
    { replace (u * sx + u * u * sx + u * sqrt eta) with (u * (sx + u * sx + sqrt eta)) by ring. apply Rmult_le_compat_l; lra. }
    assert (M2 : u * sqrt eta <= u / 10 ^ 14) by (assert (sqrt eta <= / 10 ^ 14) by (assert (u <= 1) by (rewrite Uv; lra); lra); replace (u / 10 ^ 14) with (u * / 10 ^ 14) by lra; apply Rmult_le_compat_l; lra).
    assert (A0 : 0 <= u * sx / 10 ^ 14) by lra.
    assert (R1 : Rabs (val r - sx) <= 21 / 10 * (u * sx) + 3 * (u / 10 ^ 14)) by (apply Rabs_le; lra).
    apply Rabs_le_inv in R1.
    assert (M3 : u * (val r + val e) <= 11 / 10 * (u * sx) + 11 / 10 * (u / 10 ^ 12)).
    { replace (11 / 10 * (u * sx) + 11 / 10 * (u / 10 ^ 12)) with (u * (11 / 10 * sx + 11 / 10 * (/ 10 ^ 12))) by lra. apply Rmult_le_compat_l; [lra|].
      assert (U9 : u <= / 10 ^ 14) by (rewrite Uv; lra). assert (u * sx <= / 10 ^ 14 * sx) by (apply Rmult_le_compat_r; lra). lra. }
    replace (5 * u * (sx + 1 / 10 ^ 12)) with (5 * (u * sx) + 5 * (u / 10 ^ 12)) by lra. apply Rabs_le. lra. }
  assert (Y0 : 0 < y) by (unfold y; lra). clearbody y. clear E1 E2 E3 E4 De Ueta.
  assert (D0 : 0 < val D) by lra.
  assert (Q1 : Rabs (val s / val D - q) <= 6 * u * Rabs q).
  { replace (val s / val D - q) with (q * ((y - val D) / val D)) by (unfold q; field; lra). rewrite Rabs_mult, Rmult_comm. apply Rmult_le_compat_r; [apply Rabs_pos|].
    unfold Rdiv. rewrite Rabs_mult, (Rabs_right (/ val D)) by (apply Rle_ge, Rlt_le, Rinv_0_lt_compat; lra). rewrite <- Rabs_Ropp, Ropp_minus_distr.
    apply Rmult_le_reg_r with (val D); [exact D0|]. rewrite Rmult_assoc, Rinv_l, Rmult_1_r by lra. eapply Rle_trans; [exact D1|].
    apply Rabs_le_inv in D1. replace (5 * u * y) with (u * (5 * y)) by ring. replace (6 * u * val D) with (u * (6 * val D)) by ring. apply Rmult_le_compat_l; [lra|].
    assert (K : 5 * u * y <= y / 10 ^ 3) by (replace (y / 10 ^ 3) with (/ 10 ^ 3 * y) by lra; apply Rmult_le_compat_r; [lra|rewrite Uv; lra]). lra. }
  assert (Q2 : Rabs (val s / val D) <= Rabs q + 6 * u * Rabs q).
  { replace (val s / val D) with (q + (val s / val D - q)) by ring. eapply Rle_trans; [apply Rabs_triang|]. lra. }
  replace (rnd (val s / val D) - q) with ((rnd (val s / val D) - val s / val D) + (val s / val D - q)) by ring.
  eapply Rle_trans; [apply Rabs_triang|].
  assert (Q3 : u * Rabs (val s / val D) <= u * (2 * Rabs q)).
  { apply Rmult_le_compat_l; [lra|]. pose proof (Rabs_pos q). assert (6 * u * Rabs q <= 1 * Rabs q) by (apply Rmult_le_compat_r; [lra|rewrite Uv; lra]). lra. }
  assert (E50 : b2 (-50) = 8 * u) by (rewrite Uv; simpl; lra). rewrite E50.
  assert (EE : eta <= b2 (-1074)) by (apply bpow_le; lia). lra.
Qed.
(** the product of the variances overflows *)
Lemma sign_pos (a : NumB) : 0 < val a -> Bsign a = false.
Proof.
  destruct a as [s|s| |[] m e K]; unfold val; cbn [B2R Bsign]; intros H; try lra; try reflexivity. 
  exfalso. assert (F2R (Float radix2 (cond_Zopp true (Zpos m)) e) < 0) by (apply F2R_lt_0; reflexivity). lra.
Qed.
Lemma sign_neg (a : NumB) : val a < 0 -> Bsign a = true.
Proof.
  destruct a as [s|s| |[] m e K]; unfold val; cbn [B2R Bsign]; intros H; try lra; try reflexivity.
  exfalso. assert (0 < F2R (Float radix2 (cond_Zopp false (Zpos m)) e)) by (apply F2R_gt_0; reflexivity). lra.
Qed.
Lemma mul_over (a b : NumB) : 0 < val a -> 0 < val b -> b2 1024 <= val a * val b -> nmul a b = B754_infinity false.
Proof.
  intros Pa Pb H. apply B2SF_inf.
  pose proof (@Bmult_correct 53 1024 prec53 prec_emax mode_NE a b) as K.
  change (nmul a b) with (@Bmult 53 1024 prec53 prec_emax mode_NE a b).
  change (round radix2 (SpecFloat.fexp 53 1024) (round_mode mode_NE)) with rnd in K.
  rewrite Rlt_bool_false in K.
  - rewrite K, (sign_pos a Pa), (sign_pos b Pb). reflexivity.
  - assert (Z : b2 1024 <= rnd (B2R a * B2R b)) by (apply rnd_ge; [apply fmt_bpow; lia|exact H]). pose proof (Rle_abs (rnd (B2R a * B2R b))). lra.
Qed.
Lemma corr_entry_over (s a b : NumB) : fin s -> 0 < val a -> 0 < val b -> b2 1024 <= val a * val b -> fin (corr_entry s a b) /\ val (corr_entry s a b) = 0.
Proof.
  intros Fs Pa Pb H. unfold corr_entry. rewrite (mul_over b a Pb Pa) by (rewrite Rmult_comm; exact H).
  destruct bd_floor as [Fe _]. destruct (nlit (N := NumB) 1 12) as [e|e| |e me ee Ke]; try discriminate Fe; destruct s as [t|t| |t ms es Ks]; try discriminate Fs; split; reflexivity.
Qed.
Lemma corr_entry_neg (s a b : NumB) : val a * val b <= - b2 (-1074) -> nisnan (corr_entry s a b) = true.
Proof.
  intros H. unfold corr_entry. assert (K : nsqrt (nmul b a) = B754_nan).
  { pose proof (bpow_gt_0 radix2 (-1074)) as B0. rewrite Rmult_comm in H.
    assert (Sg : xorb (Bsign b) (Bsign a) = true).
    { destruct (Rlt_le_dec (val a) 0) as [Na|Na].
      - assert (Pb : 0 < val b) by nra. rewrite (sign_pos b Pb), (sign_neg a Na). reflexivity.
      - assert (Nb : val b < 0) by nra. assert (Pa : 0 < val a) by nra. rewrite (sign_pos a Pa), (sign_neg b Nb). reflexivity. }
    assert (RN : rnd (val b * val a) <= - b2 (-1074)) by (apply rnd_le; [apply fmt_opp, fmt_bpow; lia|exact H]).
    pose proof (@Bmult_correct 53 1024 prec53 prec_emax mode_NE b a) as K.
    change (round radix2 (SpecFloat.fexp 53 1024) (round_mode mode_NE)) with rnd in K.
    change (nmul b a) with (@Bmult 53 1024 prec53 prec_emax mode_NE b a). change (B2R b * B2R a) with (val b * val a) in K.
    set (m := Bmult mode_NE b a) in *. clearbody m. destruct (Rlt_bool _ _).
    - destruct K as (K1 & _). destruct m as [t|t| |[] mm me Km]; cbn [B2R] in K1; try lra; [reflexivity|]. exfalso.
      assert (0 < F2R (Float radix2 (cond_Zopp false (Zpos mm)) me)) by (apply F2R_gt_0; reflexivity). lra.
    - rewrite Sg in K. destruct m as [t|t| |t mm me Km]; try discriminate K. injection K as ->. reflexivity. }
  rewrite K. destruct (nlit 1 12), s; reflexivity.
Qed.

(** ** C107 *)
(** what correlation_ is documented to be, entry by entry *)
Definition corr_spec (cov : mat NumB) (i j : nat) : R := entry64 cov i j / (sqrt (entry64 cov i i * entry64 cov j j) + 1 / 10 ^ 12).
(** covariance_ is a finite p x p matrix *)
Definition finite_cov {C : EstClass NumB} (p : nat) (o : inst C) (cov : mat NumB) : Prop :=
  covariance_ o = Ok cov /\ is_mat p p cov /\ Forall (Forall finite64) cov.
Lemma finite_entry p (cov : mat NumB) i j : is_mat p p cov -> Forall (Forall finite64) cov -> (i < p)%nat -> (j < p)%nat -> fin (mget cov i j).
Proof.
  intros [HL HR] HF Hi Hj. rewrite Forall_forall in HF, HR. unfold mget.
  assert (I : In (nth i cov []) cov) by (apply nth_In; rewrite HL; exact Hi). specialize (HF _ I). specialize (HR _ I). rewrite Forall_forall in HF.
  apply HF. apply nth_In. rewrite HR. exact Hj.
Qed.
Lemma correlation_tab {C : EstClass NumB} (o : inst C) p cov : (1 <= p)%nat -> finite_cov p o cov ->
  correlation_ o = Ok (tab2 p p (fun i j => corr_entry (mget cov i j) (mget cov i i) (mget cov j j))).
Proof. intros Hp (H & Hm & _). unfold correlation_. rewrite H. cbn [bind]. rewrite (tab2_mget p p cov Hm) at 1. now apply corr_tab. Qed.
(** Accuracy: every entry is finite and the documented one up to a relative error of 2^-50, for every estimator and whatever its
    variances, zero or tiny ones included, as long as they are at most 2^500. *)
Theorem C107_accuracy {C : EstClass NumB} (o : inst C) p cov : (1 <= p)%nat -> finite_cov p o cov ->
  (forall i, (i < p)%nat -> 0 <= entry64 cov i i <= pow2 500) -> (forall i j, (i < p)%nat -> (j < p)%nat -> Rabs (entry64 cov i j) <= pow2 980) ->
  exists cor, correlation_ o = Ok cor /\ is_mat p p cor /\ forall i j, (i < p)%nat -> (j < p)%nat ->
    finite64 (mget cor i j) /\ Rabs (entry64 cor i j - corr_spec cov i j) <= pow2 (-50) * Rabs (corr_spec cov i j) + pow2 (-1074).
Proof.
  intros Hp HF Hv Hc. eexists. split; [exact (correlation_tab o p cov Hp HF)|]. split; [apply is_mat_tab2|]. intros i j Hi Hj. unfold entry64 at 1. rewrite mget_tab by auto.
  destruct HF as (_ & Hm & HF). pose proof (fun i j => finite_entry p cov i j Hm HF) as FE. rewrite !pow2_bpow in *.
  destruct (corr_entry_acc (mget cov i j) (mget cov i i) (mget cov j j)) as (A & B & _); [now apply FE|now apply FE|now apply FE|now apply Hv|now apply Hv|now apply Hc|].
  split; [exact A|exact B].
Qed.
(** So a diagonal entry lies between 0 and 1 + 2^-50. *)
Corollary C107_diagonal {C : EstClass NumB} (o : inst C) p cov : (1 <= p)%nat -> finite_cov p o cov ->
  (forall i, (i < p)%nat -> 0 <= entry64 cov i i <= pow2 500) -> (forall i j, (i < p)%nat -> (j < p)%nat -> Rabs (entry64 cov i j) <= pow2 980) ->
  exists cor, correlation_ o = Ok cor /\ forall i, (i < p)%nat -> 0 <= entry64 cor i i <= 1 + pow2 (-50).
Proof.
  intros Hp HF Hv Hc. destruct (C107_accuracy o p cov Hp HF Hv Hc) as (cor & H1 & _ & H3). exists cor. split; [exact H1|]. intros i Hi. destruct (H3 i i Hi Hi) as [_ B]. split.
  - rewrite (correlation_tab o p cov Hp HF) in H1. apply Ok_inj in H1. subst cor. unfold entry64. rewrite mget_tab by auto.
    destruct HF as (_ & Hm & HF). pose proof (finite_entry p cov i i Hm HF Hi Hi) as FE. specialize (Hv i Hi). specialize (Hc i i Hi Hi). rewrite !pow2_bpow in *.
    apply (corr_entry_acc (mget cov i i) (mget cov i i) (mget cov i i)); auto. apply Hv.
  - specialize (Hv i Hi). unfold corr_spec in B. rewrite sqrt_square in B by lra. set (v := entry64 cov i i) in *. set (q := v / (v + 1 / 10 ^ 12)) in *.
    assert (Q0 : 0 <= q) by (apply Rmult_le_pos; [lra|apply Rlt_le, Rinv_0_lt_compat; lra]). rewrite (Rabs_right q) in B by lra. apply Rabs_le_inv in B.
    assert (Q1 : pow2 (-1074) <= 1 - q).
    { replace (1 - q) with (1 / 10 ^ 12 / (v + 1 / 10 ^ 12)) by (unfold q; field; lra). rewrite pow2_bpow in *.
      apply Rmult_le_reg_r with (v + 1 / 10 ^ 12); [lra|]. replace (1 / 10 ^ 12 / (v + 1 / 10 ^ 12) * (v + 1 / 10 ^ 12)) with (1 / 10 ^ 12) by (field; lra).
      assert (K1 : b2 500 <= b2 501) by (apply bpow_le; lia).
      assert (K2 : b2 (-1074) * (v + 1 / 10 ^ 12) <= b2 (-1074) * b2 501).
      { apply Rmult_le_compat_l; [apply bpow_ge_0|]. change 501%Z with (500 + 1)%Z. rewrite b2_add1. assert (1 <= b2 500) by (change 1 with (b2 0); apply bpow_le; lia). lra. }
      rewrite <- bpow_plus in K2. change (-1074 + 501)%Z with (-573)%Z in K2. assert (b2 (-573) <= b2 (-40)) by (apply bpow_le; lia). assert (b2 (-40) <= 1 / 10 ^ 12) by (simpl; lra). lra. }
    assert (0 <= pow2 (-50)) by (rewrite pow2_bpow; apply bpow_ge_0). assert (pow2 (-50) * q <= pow2 (-50) * 1) by (apply Rmult_le_compat_l; [lra|]; pose proof (bpow_ge_0 radix2 (-1074)); rewrite pow2_bpow in Q1; lra). lra.
Qed.
(** Overflow: where the product of two variances reaches 2^1024 the correlation is reported as 0, without an error; in particular
    the diagonal entry of a variable with variance 2^512 or more is 0. *)
Theorem C107_overflow {C : EstClass NumB} (o : inst C) p cov : (1 <= p)%nat -> finite_cov p o cov ->
  exists cor, correlation_ o = Ok cor /\ forall i j, (i < p)%nat -> (j < p)%nat -> 0 < entry64 cov i i -> 0 < entry64 cov j j ->
    pow2 1024 <= entry64 cov i i * entry64 cov j j -> finite64 (mget cor i j) /\ entry64 cor i j = 0.
Proof.
  intros Hp HF. eexists. split; [exact (correlation_tab o p cov Hp HF)|]. intros i j Hi Hj P1 P2 H. unfold entry64 at 1. rewrite mget_tab by auto.
  destruct HF as (_ & Hm & HF). pose proof (finite_entry p cov i j Hm HF Hi Hj) as FE. rewrite pow2_bpow in H.
  now apply corr_entry_over.
Qed.
(** A negative variance next to a positive one gives NaN; two negative ones are taken for positive. *)
Theorem C107_negative_variance {C : EstClass NumB} (o : inst C) p cov : (1 <= p)%nat -> finite_cov p o cov ->
  exists cor, correlation_ o = Ok cor /\ forall i j, (i < p)%nat -> (j < p)%nat -> 
    entry64 cov i i * entry64 cov j j <= - pow2 (-1074) -> nisnan (mget cor i j) = true.
Proof.
  intros Hp HF. eexists. split; [exact (correlation_tab o p cov Hp HF)|]. intros i j Hi Hj H. rewrite mget_tab by auto. rewrite pow2_bpow in H. now apply corr_entry_neg.
Qed.
(** ** From the data *)
Lemma sym_bd (a b : NumB) : bd 463 a -> bd 463 b -> bd 464 (ndiv (nadd a b) (nofZ 2)).
Proof. intros A B. destruct (bd_add 463 a b A B) as [K _]; [lia|]. destruct fin_2 as [F2 V2]. apply bd_div; [exact K|exact F2|rewrite V2; lra|lia]. Qed.
Lemma sym_nonneg (a : NumB) : bd 463 a -> 0 <= val a -> 0 <= val (ndiv (nadd a a) (nofZ 2)).
Proof.
  intros A H. destruct (bd_add 463 a a A A) as [K V]; [lia|]. destruct fin_2 as [F2 V2]. destruct (bd_div (463 + 1) _ _ K F2) as [_ V3]; [rewrite V2; lra|lia|].
  rewrite V3, V2, V. apply rnd_nonneg. assert (0 <= rnd (val a + val a)) by (apply rnd_nonneg; lra). lra.
Qed.
(** what the estimator's own covariance_ has to satisfy for C107_accuracy *)
Definition corr_accurate {C : EstClass NumB} (p : nat) (o : inst C) : Prop := exists cov cor, covariance_ o = Ok cov /\ correlation_ o = Ok cor /\ is_mat p p cor /\
  (forall i j, (i < p)%nat -> (j < p)%nat -> finite64 (mget cor i j) /\ Rabs (entry64 cor i j - corr_spec cov i j) <= pow2 (-50) * Rabs (corr_spec cov i j) + pow2 (-1074)) /\
  (forall i, (i < p)%nat -> 0 <= entry64 cor i i <= 1 + pow2 (-50)).
Lemma corr_accurate_of {C : EstClass NumB} p (o : inst C) f : (1 <= p)%nat -> covariance_ o = Ok (tab2 p p f) ->
  (forall i j, (i < p)%nat -> (j < p)%nat -> bd 464 (f i j)) -> (forall i, (i < p)%nat -> 0 <= val (f i i)) -> corr_accurate p o.
Proof.
  intros Hp HC HB HV. assert (FC : finite_cov p o (tab2 p p f)).
  { split; [exact HC|]. split; [apply is_mat_tab2|]. apply is_mat_Forall_tab2. intros i j Hi Hj. apply (HB i j Hi Hj). }
  assert (G1 : b2 464 <= b2 500) by (apply bpow_le; lia). assert (G2 : b2 464 <= b2 980) by (apply bpow_le; lia).
  assert (H1 : forall i, (i < p)%nat -> 0 <= entry64 (tab2 p p f) i i <= pow2 500).
  { intros i Hi. unfold entry64. rewrite mget_tab by auto. rewrite pow2_bpow. specialize (HV i Hi). destruct (HB i i Hi Hi) as [_ B]. unfold real64, val in *. rewrite Rabs_right in B by lra. lra. }
  assert (H2 : forall i j, (i < p)%nat -> (j < p)%nat -> Rabs (entry64 (tab2 p p f) i j) <= pow2 980).
  { intros i j Hi Hj. unfold entry64. rewrite mget_tab by auto. rewrite pow2_bpow. destruct (HB i j Hi Hj) as [_ B]. unfold real64, val in *. lra. }
  destruct (C107_accuracy o p _ Hp FC H1 H2) as (cor & E1 & E2 & E3). destruct (C107_diagonal o p _ Hp FC H1 H2) as (cor' & E1' & E4). rewrite E1 in E1'. apply Ok_inj in E1'. subst cor'.
  exists (tab2 p p f), cor. auto.
Qed.
Theorem C107_ewa p r diff rows : (1 <= p)%nat -> rate64 r -> rows_of_length p rows -> absorbed diff rows <> [] -> rows_within (pow2 230) (absorbed diff rows) ->
  exists o, fitted64 (C := Ewa) (mkEwaP r diff) rows o /\ corr_accurate p o.
Proof.
  intros Hp HR Hr Hx Hw. rewrite pow2_bpow in Hw.
  destruct (burn_ok r (rate_fin _ HR) (conj (rate_lo _ HR) (rate_hi _ HR))) as (nb & Eb & Nb & _).
  destruct (ewa_entries p r nb diff rows Hp Eb Hr Hx) as (o & E1 & _ & _ & E4). exists o. split; [exact E1|].
  pose proof (within_coords p (b2 230) _ (absorbed_rows p diff rows Hr) Hw) as W. destruct (raw_ewa p r nb _ HR Nb W) as [[B V] _].
  eapply corr_accurate_of; [exact Hp|exact E4| |].
  - intros i j Hi Hj. apply sym_bd; now apply B.
  - intros i Hi. specialize (V i Hi). specialize (B i i Hi Hi). apply sym_nonneg; assumption.
Qed.
Theorem C107_empirical p diff rows : (1 <= p)%nat -> rows_of_length p rows -> absorbed diff rows <> [] -> (Z.of_nat (length rows) <= 2 ^ 47)%Z ->
  rows_within (pow2 230) (absorbed diff rows) ->
  exists o, fitted64 (C := Empirical) (mkEmpP diff) rows o /\ corr_accurate p o.
Proof.
  intros Hp Hr Hx Hl Hw. rewrite pow2_bpow in Hw. destruct (emp_entries p diff rows Hp Hr Hx) as (o & E1 & _ & _ & E4). exists o. split; [exact E1|].
  pose proof (within_coords p (b2 230) _ (absorbed_rows p diff rows Hr) Hw) as W. pose proof (absorbed_length_le diff rows) as La.
  assert (ML : mag_lo <= b2 230) by (apply bpow_le; lia). assert (MH : b2 230 <= mag_hi) by (apply bpow_le; lia).
  assert (Lz : (Z.of_nat (length (coords (absorbed diff rows))) <= 2 ^ 47)%Z) by (rewrite coords_length; lia).
  pose proof (emp_acc _ ML MH p _ W Lz) as A. pose proof (fun i j => cov_bound _ ML p _ _ i j W Lz A) as B. destruct A as [_ Ac].
  assert (BB : forall i j, (i < p)%nat -> (j < p)%nat -> bd 463 (fc (fold_left f_emp (coords (absorbed diff rows)) f0) i j)).
  { intros i j Hi Hj. split; [apply (Ac i j Hi Hj)|]. eapply Rle_trans; [apply (B i j Hi Hj)|].
    rewrite <- bpow_plus. replace (b2 463) with (b2 3 * b2 (230 + 230)) by (rewrite <- bpow_plus; f_equal; lia). change (b2 3) with 8. pose proof (bpow_ge_0 radix2 (230 + 230)). lra. }
  eapply corr_accurate_of; [exact Hp|exact E4| |].
  - intros i j Hi Hj. apply sym_bd; now apply BB.
  - intros i Hi. apply sym_nonneg; [now apply BB|]. exact (emp_var_nonneg _ ML MH p _ i W Lz Hi).
Qed.
(** ** Met, and missed: the float64 rows 1 and 3 have variance 1; the rows +-2^300 a finite variance and a zero on the diagonal of correlation_ *)
Definition overflowing_rows : list (vec NumB) := [[b64_of (2 ^ 300)]; [b64_of (- 2 ^ 300)]].
Theorem C107_overflow_reached :
  Forall (Forall finite64) overflowing_rows /\
  exists o cov cor, fitted64 (C := Empirical) (mkEmpP false) overflowing_rows o /\ covariance_ o = Ok cov /\ Forall (Forall finite64) cov /\ 0 < entry64 cov 0 0 /\
    correlation_ o = Ok cor /\ Forall (Forall finite64) cor /\ entry64 cor 0 0 = 0.
Proof.
  split. { repeat constructor; vm_compute; reflexivity. }
  destruct (emp_entries (N := NumB) 1 false overflowing_rows) as (o & E1 & _ & _ & E4); [lia|repeat constructor|discriminate|].
  exists o. set (t := tab2 _ _ _) in E4.
  assert (K : map (map B2SF) t = [[SpecFloat.S754_finite false (2 ^ 52) 548]]) by (vm_compute; reflexivity).
  destruct t as [|[|v [|? ?]] [|? ?]]; try discriminate K. cbn [map] in K. injection K as K.
  assert (KV : v = @B754_finite 53 1024 false (2 ^ 52) 548 eq_refl) by (apply B2SF_inj; exact K). subst v.
  eexists. eexists. split; [exact E1|]. split; [exact E4|]. split; [repeat constructor|]. split.
  - unfold entry64, real64. cbn [mget nth B2R]. apply F2R_gt_0. reflexivity.
  - split; [unfold correlation_; rewrite E4; cbn [bind]; exact (corr_tab 1 (fun _ _ => _) ltac:(lia))|].
    split.
    + repeat constructor; vm_compute; reflexivity.
    + vm_compute. reflexivity.
Qed.

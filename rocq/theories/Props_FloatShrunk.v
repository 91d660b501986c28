(** * C78 for ShrunkCovariance (identity target): forward error in IEEE binary64 *)
From Coq Require Import Reals ZArith String List Bool Lia Lra Psatz.
From Flocq Require Import Core BinarySingleNaN.
From Verif Require Import Num NumBin Numpy PyVal LinalgModel StateModel BaseModel Estimators RegistryModel Spec ListLemmas BaseProofs Shapes ClassShapes
  RMat LinSpec RealSpec Fin EwaReal EmpFacts RunAvg ShrinkReal Props_Stream Props_Shape Props_Moment FloatSpec FloatBase FloatRun FloatErr FloatAcc FloatEwa FloatDiag Props_Float FloatBound Props_FloatShrink.
Import ListNotations.
Local Open Scope R_scope.

(** ** A left-to-right sum: the error is at most 2 n^2 roundings of the largest term *)
Lemma vsum_err (l : list NumB) B : 0 <= B -> Forall (fun x => fin x /\ Rabs (val x) <= B) l -> (Z.of_nat (length l) <= 2 ^ 20)%Z -> 4194304 * B <= big ->
  fin (vsum l) /\ Rabs (val (vsum l) - lsum (map val l)) <= 2 * INR (length l) * INR (length l) * (u53 * B) /\ Rabs (lsum (map val l)) <= INR (length l) * B.
Proof.
  intros HB. induction l as [|x l IH] using rev_ind; intros HF HL HH.
  - destruct fin_0 as [F0 V0]. unfold vsum. cbn [fold_left map lsum length INR]. rewrite V0, Rminus_0_r, Rabs_R0. split; [exact F0|]. lra.
  - apply Forall_app in HF. destruct HF as [HF Hx]. apply Forall_inv in Hx. destruct Hx as [Fx Bx]. rewrite app_length in *. cbn [length] in *.
    destruct (IH HF ltac:(lia) HH) as (F & E & T). unfold vsum in *. rewrite fold_left_app. cbn [fold_left]. set (acc := fold_left nadd l n0) in *.
    rewrite map_app, lsum_app. cbn [map lsum]. rewrite Rplus_0_r. replace (length l + 1)%nat with (S (length l)) by lia. rewrite S_INR.
    assert (K : 0 <= INR (length l) <= 1048576). { split; [apply pos_INR|]. rewrite INR_IZR_INZ. apply (IZR_le _ (2 ^ 20)). lia. }
    set (k := INR (length l)) in *. set (s := lsum (map val l)) in *.
    assert (UB : 0 <= u53 * B) by (apply Rmult_le_pos; [left; exact u53_pos|exact HB]).
    assert (Small : 2 * k * k * (u53 * B) <= k * B). { replace (2 * k * k * (u53 * B)) with (k * ((2 * k * u53) * B)) by ring. apply Rmult_le_compat_l; [lra|]. rewrite <- (Rmult_1_l B) at 2. apply Rmult_le_compat_r; [exact HB|]. rewrite u53_val. lra. }
    assert (Ba : Rabs (val acc) <= 2 * k * B) by (pose proof (abs_bound _ _ _ _ E T); lra).
    pose proof (abs_add _ _ _ _ Ba Bx) as Bs. assert (Bs' : Rabs (val acc + val x) <= 2 * (k + 1) * B) by lra.
    destruct (fin_add acc x F Fx) as [F1 V1]. { eapply Rle_trans; [exact Bs'|]. apply Rle_trans with (4194304 * B); [apply Rmult_le_compat_r; lra|exact HH]. }
    split; [exact F1|]. change (@fold_left NumB NumB) with (@fold_left NumB NumB) in *. rewrite V1. split.
    + pose proof (rnd_add_err (val acc) (val x) (val_fmt _) (val_fmt _)) as E1.
      assert (E2 : Rabs (rnd (val acc + val x) - (val acc + val x)) <= 2 * (k + 1) * (u53 * B)).
      { eapply Rle_trans; [exact E1|]. replace (2 * (k + 1) * (u53 * B)) with (u53 * (2 * (k + 1) * B)) by ring. apply Rmult_le_compat_l; [left; exact u53_pos|exact Bs']. }
      replace (rnd (val acc + val x) - (s + val x)) with ((rnd (val acc + val x) - (val acc + val x)) + (val acc - s)) by ring.
      eapply Rle_trans; [apply Rabs_triang|]. eapply Rle_trans; [apply Rplus_le_compat; [exact E2|exact E]|].
      replace (2 * (k + 1) * (u53 * B) + 2 * k * k * (u53 * B)) with ((2 * k * k + 2 * k + 2) * (u53 * B)) by ring. apply Rmult_le_compat_r; [exact UB|]. nra.
    + eapply Rle_trans; [apply abs_add; [exact T|exact Bx]|]. lra.
Qed.

Lemma lsum_seq_map n (f : nat -> R) : lsum (map f (seq 0 n)) = rsum n f.
Proof. induction n as [|n IH]; [reflexivity|]. rewrite seq_S, map_app, lsum_app, IH. cbn [map lsum rsum Nat.add]. ring. Qed.
Lemma rsum_abs_le n f b : (forall i, (i < n)%nat -> Rabs (f i) <= b) -> Rabs (rsum n f) <= INR n * b.
Proof. intros H. eapply Rle_trans; [apply rsum_abs|]. rewrite <- rsum_const. now apply rsum_le. Qed.
Section Shrunk64.
  Context (M : R) (ML : mag_lo <= M) (MH : M <= mag_hi) (p : nat) (P1 : (1 <= p)%nat) (P2 : (Z.of_nat p <= 2 ^ 20)%Z).
  Context (c : nat -> nat -> NumB) (C : rmat) (E0 : R) (HE : 0 <= E0 <= M * M / 10).
  Context (HC : forall i j, (i < p)%nat -> (j < p)%nat -> fin (c i j) /\ Rabs (val (c i j)) <= 5 * (M * M) /\ Rabs (val (c i j) - C i j) <= E0).
  Context (CB : forall i j, (i < p)%nat -> (j < p)%nat -> Rabs (C i j) <= 4 * (M * M)).
  Context (delta : NumB) (HD : unit64 delta).
  Notation U := (u53 * (M * M)).
  Notation P := (INR p).
  Lemma shr_scale : 0 < M * M /\ 0 < U /\ U <= M * M / 1000000000 /\ 1 <= P <= 1048576 /\ eta <= U / 1000 /\ 1152921504606846976 * (M * M) <= big.
  Proof.
    pose proof (Mpos M ML) as MP. assert (SP : 0 < M * M) by nra. split; [exact SP|]. split; [apply Rmult_lt_0_compat; [exact u53_pos|exact SP]|].
    split; [rewrite u53_val; lra|]. split; [|split; [pose proof (eta_sq M ML); pose proof eta_pos; lra|apply (hiS M ML MH)]].
    split; [replace 1 with (INR 1) by reflexivity; now apply le_INR|]. rewrite INR_IZR_INZ. apply (IZR_le _ (2 ^ 20)). exact P2.
  Qed.
  Lemma rnd_within x B : Rabs x <= B * (M * M) -> 0 <= B -> Rabs (rnd x - x) <= (B + 1 / 1000) * U.
  Proof.
    intros H HB. destruct shr_scale as (_ & UP & _ & _ & ET & _). pose proof (rnd_err x) as R0. pose proof u53_pos. apply Rle_trans with (u53 * Rabs x + eta); [exact R0|].
    assert (u53 * Rabs x <= u53 * (B * (M * M))) by (apply Rmult_le_compat_l; lra). lra.
  Qed.
  Lemma trace_err : fin (mtrace (tab2 p p c)) /\ Rabs (val (mtrace (tab2 p p c)) - rtrace p C) <= P * (10 * P * U + E0) /\ Rabs (val (mtrace (tab2 p p c))) <= 6 * P * (M * M).
  Proof.
    destruct shr_scale as (SP & UP & US & PB & _ & HB). rewrite trace_tab2 by exact P1.
    destruct (vsum_err (tab p (fun i => c i i)) (5 * (M * M)) ltac:(lra)) as (F & E & T).
    - apply Forall_tab. intros i Hi. destruct (HC i i Hi Hi) as (A & B & _). auto.
    - now rewrite tab_length.
    - lra.
    - rewrite tab_length in E, T. split; [exact F|].
      assert (LS : lsum (map val (tab p (fun i => c i i))) = rsum p (fun i => val (c i i))).
      { rewrite map_tab. unfold tab. apply lsum_seq_map. }
      rewrite LS in E, T.
      assert (D : Rabs (rsum p (fun i => val (c i i)) - rtrace p C) <= P * E0).
      { unfold rtrace. rewrite <- rsum_minus. apply rsum_abs_le. intros i Hi. apply (HC i i Hi Hi). }
      assert (PU : P * U <= M * M / 800). { apply Rle_trans with (1048576 * (M * M / 1000000000)); [apply Rmult_le_compat; lra|lra]. }
      split.
      + replace (P * (10 * P * U + E0)) with (2 * P * P * (u53 * (5 * (M * M))) + P * E0) by ring.
        replace (val (vsum (tab p (fun i => c i i))) - rtrace p C) with ((val (vsum (tab p (fun i => c i i))) - rsum p (fun i => val (c i i))) + (rsum p (fun i => val (c i i)) - rtrace p C)) by ring.
        eapply Rle_trans; [apply Rabs_triang|]. apply Rplus_le_compat; assumption.
      + pose proof (abs_bound _ _ _ _ E T) as B. eapply Rle_trans; [exact B|]. replace (2 * P * P * (u53 * (5 * (M * M))) + P * (5 * (M * M))) with (P * (10 * (P * U) + 5 * (M * M))) by ring.
        replace (6 * P * (M * M)) with (P * (6 * (M * M))) by ring. apply Rmult_le_compat_l; lra.
  Qed.
  Definition mu64 : NumB := ndiv (mtrace (tab2 p p c)) (nofn p).
  Lemma mu_err : fin mu64 /\ Rabs (val mu64 - rtrace p C / P) <= 17 * P * U + E0 /\ Rabs (val mu64) <= 7 * (M * M).
  Proof.
    destruct shr_scale as (SP & UP & US & PB & ET & HB). destruct trace_err as (F & E & B). destruct (bd_nofn p P1 P2) as (Fp & Gp & Vp).
    assert (Q : Rabs (val (mtrace (tab2 p p c)) / P) <= 6 * (M * M)).
    { unfold Rdiv. rewrite Rabs_mult, (Rabs_right (/ P)) by (apply Rle_ge; left; apply Rinv_0_lt_compat; lra). apply Rmult_le_reg_r with P; [lra|]. rewrite Rmult_assoc, Rinv_l by lra. lra. }
    destruct (fin_div _ (nofn p) F Fp) as [F1 V1]; [lra|rewrite Vp; lra|]. rewrite Vp in V1.
    pose proof (rnd_within _ 6 Q ltac:(lra)) as R1. unfold mu64. split; [exact F1|]. rewrite V1. split.
    - assert (D : Rabs (val (mtrace (tab2 p p c)) / P - rtrace p C / P) <= 10 * P * U + E0).
      { unfold Rdiv. rewrite <- Rmult_minus_distr_r, Rabs_mult, (Rabs_right (/ P)) by (apply Rle_ge; left; apply Rinv_0_lt_compat; lra). apply Rmult_le_reg_r with P; [lra|]. rewrite Rmult_assoc, Rinv_l by lra. lra. }
      pose proof (abs_chain _ _ _ _ _ R1 D) as K. eapply Rle_trans; [exact K|]. assert (U <= P * U) by (rewrite <- (Rmult_1_l U) at 1; apply Rmult_le_compat_r; lra). lra.
    - pose proof (abs_bound _ _ _ _ R1 Q). lra.
  Qed.
  Definition e64 (i j : nat) : NumB := if Nat.eqb i j then n1 else n0.
  Lemma e64_ok i j : fin (e64 i j) /\ val (e64 i j) = rI i j.
  Proof. unfold e64, rI. destruct fin_0 as [F0 V0], fin_1 as [F1 V1]. destruct (Nat.eqb i j); auto. Qed.
  Lemma rI01 i j : 0 <= rI i j <= 1.
  Proof. unfold rI. destruct (Nat.eqb i j); lra. Qed.
  Definition shr64 (i j : nat) : NumB := nadd (nmul (nsub n1 delta) (c i j)) (nmul delta (nmul mu64 (e64 i j))).
  Lemma scale_le x d B : 0 <= d <= 1 -> Rabs x <= B -> Rabs (d * x) <= B.
  Proof. intros Hd H. rewrite Rabs_mult, (Rabs_right d) by lra. pose proof (Rabs_pos x). apply Rle_trans with (1 * Rabs x); [apply Rmult_le_compat_r; lra|lra]. Qed.
  Lemma shr64_err i j : (i < p)%nat -> (j < p)%nat ->
    fin (shr64 i j) /\ Rabs (val (shr64 i j) - shrinkI p (val delta) C i j) <= 64 * P * U + E0 /\ Rabs (val (shr64 i j)) <= 5 * (M * M).
  Proof.
    intros Hi Hj. destruct shr_scale as (SP & UP & US & PB & ET & HB). destruct (HC i j Hi Hj) as (Fc & Bc & Ec). destruct HD as [Fd Dd]. destruct fin_1 as [F1 V1].
    destruct mu_err as (Fm & Em & Bm). destruct (e64_ok i j) as [Fe Ve]. pose proof (rI01 i j) as I01. pose proof (CB i j Hi Hj) as BC.
    assert (PU : U <= P * U) by (rewrite <- (Rmult_1_l U) at 1; apply Rmult_le_compat_r; lra).
    assert (PU1 : P * U <= M * M / 800) by (apply Rle_trans with (1048576 * (M * M / 1000000000)); [apply Rmult_le_compat; lra|lra]).
    destruct (fin_sub n1 delta F1 Fd) as [Fa Va]. { rewrite V1. apply Rle_trans with 1; [apply Rabs_le; lra|]. change 1 with (bpow radix2 0). unfold big. apply bpow_le. lia. }
    rewrite V1 in Va. set (a := nsub n1 delta) in *.
    assert (Ea : Rabs (val a - (1 - val delta)) <= u53). { rewrite Va. eapply Rle_trans; [apply rnd_sub_err; [apply (fmt_bpow 0); lia|apply val_fmt]|]. rewrite <- (Rmult_1_r u53) at 2. apply Rmult_le_compat_l; [left; exact u53_pos|apply Rabs_le; lra]. }
    assert (Ba : 0 <= val a <= 1). { rewrite Va. split; [apply rnd_nonneg; lra|apply rnd_le; [apply (fmt_bpow 0); lia|lra]]. }
    (* the first product *)
    pose proof (scale_le _ _ _ Ba Bc) as B1. destruct (fin_mul a (c i j) Fa Fc) as [Fp Vp]; [lra|]. pose proof (rnd_within _ 5 B1 ltac:(lra)) as R1.
    assert (D1 : Rabs (val a * val (c i j) - (1 - val delta) * C i j) <= 5 * U + (1 - val delta) * E0).
    { replace (val a * val (c i j) - (1 - val delta) * C i j) with ((val a - (1 - val delta)) * val (c i j) + (1 - val delta) * (val (c i j) - C i j)) by ring.
      apply abs_add; [replace (5 * U) with (u53 * (5 * (M * M))) by ring; now apply abs_mul|]. rewrite Rabs_mult, (Rabs_right (1 - _)) by lra. apply Rmult_le_compat_l; lra. }
    pose proof (abs_chain _ _ _ _ _ R1 D1) as E1. pose proof (abs_bound _ _ _ _ R1 B1) as BP.
    (* the target *)
    assert (Bt : Rabs (val mu64 * rI i j) <= 7 * (M * M)) by (rewrite Rmult_comm; now apply scale_le).
    destruct (fin_mul mu64 (e64 i j) Fm Fe) as [Ft Vt]; [rewrite Ve; lra|]. rewrite Ve in Vt. pose proof (rnd_within _ 7 Bt ltac:(lra)) as R2. pose proof (abs_bound _ _ _ _ R2 Bt) as Bt'.
    assert (Bt8 : Rabs (rnd (val mu64 * rI i j)) <= 8 * (M * M)) by lra. pose proof (scale_le _ _ _ Dd Bt8) as B3.
    destruct (fin_mul delta (nmul mu64 (e64 i j)) Fd Ft) as [FT VT]; [rewrite Vt; lra|]. rewrite Vt in VT. pose proof (rnd_within _ 8 B3 ltac:(lra)) as R3.
    assert (D2 : Rabs (val delta * rnd (val mu64 * rI i j) - val delta * (rtrace p C / P) * rI i j) <= 8 * U + 17 * P * U + val delta * E0).
    { replace (val delta * rnd (val mu64 * rI i j) - val delta * (rtrace p C / P) * rI i j) with
        (val delta * (rnd (val mu64 * rI i j) - val mu64 * rI i j) + val delta * (rI i j * (val mu64 - rtrace p C / P))) by ring.
      replace (8 * U + 17 * P * U + val delta * E0) with (8 * U + (17 * P * U + val delta * E0)) by ring. apply abs_add.
      - apply scale_le; [exact Dd|]. lra.
      - rewrite Rabs_mult, (Rabs_right (val delta)) by lra. pose proof (scale_le _ _ _ I01 Em) as K. apply Rle_trans with (val delta * (17 * P * U + E0)); [apply Rmult_le_compat_l; lra|].
        assert (val delta * (17 * P * U) <= 17 * P * U). { rewrite <- (Rmult_1_l (17 * P * U)) at 2. apply Rmult_le_compat_r; lra. } lra. }
    pose proof (abs_chain _ _ _ _ _ R3 D2) as E2. pose proof (abs_bound _ _ _ _ R3 B3) as BT.
    (* the sum *)
    pose proof (abs_add _ _ _ _ BP BT) as BS. destruct (fin_add (nmul a (c i j)) (nmul delta (nmul mu64 (e64 i j))) Fp FT) as [FS VS]; [rewrite Vp, VT; lra|]. rewrite Vp, VT in VS.
    assert (BS' : Rabs (rnd (val a * val (c i j)) + rnd (val delta * rnd (val mu64 * rI i j))) <= 14 * (M * M)) by lra. pose proof (rnd_within _ 14 BS' ltac:(lra)) as R4.
    pose proof (abs_add _ _ _ _ E1 E2) as E3.
    assert (EF : Rabs (val (shr64 i j) - shrinkI p (val delta) C i j) <= 64 * P * U + E0).
    { unfold shr64. fold a. rewrite VS. unfold shrinkI. eapply Rle_trans; [eapply abs_chain; [exact R4|]|].
      - replace (rnd (val a * val (c i j)) + rnd (val delta * rnd (val mu64 * rI i j)) - ((1 - val delta) * C i j + val delta * (rtrace p C / P) * rI i j))
          with ((rnd (val a * val (c i j)) - (1 - val delta) * C i j) + (rnd (val delta * rnd (val mu64 * rI i j)) - val delta * (rtrace p C / P) * rI i j)) by ring. exact E3.
      - lra. }
    split; [exact FS|]. split; [exact EF|].
    assert (BI : Rabs (shrinkI p (val delta) C i j) <= 4 * (M * M)).
    { unfold shrinkI. assert (T1 : Rabs (rtrace p C / P) <= 4 * (M * M)).
      { unfold Rdiv. rewrite Rabs_mult, (Rabs_right (/ P)) by (apply Rle_ge; left; apply Rinv_0_lt_compat; lra). apply Rmult_le_reg_r with P; [lra|]. rewrite Rmult_assoc, Rinv_l, Rmult_1_r by lra.
        rewrite (Rmult_comm _ P). unfold rtrace. apply rsum_abs_le. intros k Hk. now apply CB. }
      replace (4 * (M * M)) with ((1 - val delta) * (4 * (M * M)) + val delta * (4 * (M * M))) by ring. apply abs_add.
      - rewrite Rabs_mult, (Rabs_right (1 - _)) by lra. apply Rmult_le_compat_l; lra.
      - rewrite Rmult_assoc, Rabs_mult, (Rabs_right (val delta)) by lra. apply Rmult_le_compat_l; [lra|]. rewrite Rmult_comm. now apply scale_le. }
    pose proof (abs_bound _ _ _ _ EF BI). lra.
  Qed.
End Shrunk64.
Theorem C78_shrunk_accuracy_uniform_in_time p r delta diff rows M :
  (1 <= p)%nat -> (Z.of_nat p <= 2 ^ 20)%Z -> rate64 r -> finite64 delta -> 0 <= real64 delta <= 1 ->
  rows_of_length p rows -> absorbed diff rows <> [] -> moderate M -> rows_within M (absorbed diff rows) ->
  exists o loc cov nb, fitted64 (C := Shrunk) (mkShrP r delta "identity" diff) rows o /\ finite_attributes p o loc cov /\
    (nb <= burn_len (real64 r) <= nb + 1)%nat /\
    (forall i, (i < p)%nat -> Rabs (real64 (vget loc i) - ewa_mean (real64 r) nb (real_rows (absorbed diff rows)) i) <= pow2 (-43) * M / real64 r) /\
    (forall i j, (i < p)%nat -> (j < p)%nat ->
       Rabs (entry64 cov i j - shrinkI p (real64 delta) (ewa_cov (real64 r) nb (real_rows (absorbed diff rows))) i j) <= pow2 (-38) * (M * M) / real64 r + INR p * pow2 (-46) * (M * M)).
Proof.
  intros P1 P2 HR Fd Hd Hr Hx HM Hw. destruct (burn_ok r (rate_fin _ HR) (conj (rate_lo _ HR) (rate_hi _ HR))) as (nb & Eb & Nb & Nb').
  pose proof (moderate_lo _ HM) as ML. pose proof (moderate_hi _ HM) as MH.
  pose proof (within_coords p M _ (absorbed_rows p diff rows Hr) Hw) as W. set (xs := coords (absorbed diff rows)) in *.
  pose proof (ewa_acc M ML MH r (rate_fin _ HR) (rate_lo _ HR) (rate_hi _ HR) nb ltac:(lia) ltac:(lia) p _ W) as A.
  destruct (ewa_ok_bounds M ML r (rate_lo _ HR) (rate_hi _ HR) nb ltac:(lia) ltac:(lia) p _ _ W A) as [_ B]. destruct A as [Am Ac].
  assert (Hl : length xs = length (absorbed diff rows)) by apply map_length.
  assert (Ln : exists n, length xs = S n). { rewrite Hl. destruct (absorbed diff rows); [congruence|]. eexists. reflexivity. } destruct Ln as (n & Ln).
  destruct (run_tab (C := Shrunk) (fun b => mkShrP r delta "identity" b) ltac:(split; [reflexivity|repeat split; intros; first [discriminate|reflexivity]])
    (f_ewa_d p r nb) (f_ewa r nb) p f0) with (xs := xs) (diff := diff) (rows := rows) (n := n) as (o & E1 & E2 & E3 & E4).
  - cbn. unfold ewa_init. rewrite Eb. reflexivity.
  - intros a x. apply (ewa_update_tab p r nb a x).
  - exact Hr.
  - unfold xs. apply coords_tab. now apply absorbed_rows.
  - destruct xs; [discriminate Ln|discriminate].
  - pose proof (fn_ewa r nb xs) as K. cbn. rewrite K, Ln. reflexivity.
  - set (a := fold_left (f_ewa r nb) xs f0) in *.
    pose proof (Mpos M ML) as MP. assert (SP : 0 < M * M) by nra.
    set (Cr := ewa_cov (val r) nb (reals xs)) in *.
    pose proof (errc_small M ML r (rate_lo _ HR) (rate_hi _ HR)) as ES. set (E0 := errc M r) in *.
    assert (SH : forall i j, (i < p)%nat -> (j < p)%nat -> fin (shr64 p (fc a) delta i j) /\
       Rabs (val (shr64 p (fc a) delta i j) - shrinkI p (val delta) Cr i j) <= 64 * INR p * (u53 * (M * M)) + E0 /\ Rabs (val (shr64 p (fc a) delta i j)) <= 5 * (M * M)).
    { intros i j Hi Hj. apply (shr64_err M ML MH p P1 P2 (fc a) Cr E0 ltac:(lra)); auto.
      - intros i' j' Hi' Hj'. destruct (Ac i' j' Hi' Hj') as [F Q]. split; [exact F|]. split; [now apply B|exact Q].
      - intros i' j' Hi' Hj'. apply (ewa_cov_abs M ML r (rate_lo _ HR) (rate_hi _ HR) nb ltac:(lia) ltac:(lia) p xs i' j' W Hi' Hj').
      - split; assumption. }
    assert (EC : c_cov Shrunk (mkShrP r delta "identity" false) (f_ewa_d p r nb a) = Ok (tab2 p p (shr64 p (fc a) delta))).
    { cbn. unfold shr_cov, f_ewa_d, f_emp_d. cbn [getI getN getM dget String.eqb Ascii.eqb Bool.eqb bind app fst snd shr_target shr_delta].
      unfold madd, mscale, mmap, meye. rewrite !map_tab2, bc2_tab. reflexivity. }
    rewrite EC in E4. cbn [bind] in E4. rewrite to_symmetric_tab in E4 by exact P1.
    assert (SY : forall i j, (i < p)%nat -> (j < p)%nat ->
       fin (ndiv (nadd (shr64 p (fc a) delta i j) (shr64 p (fc a) delta j i)) (nofZ 2)) /\
       Rabs (val (ndiv (nadd (shr64 p (fc a) delta i j) (shr64 p (fc a) delta j i)) (nofZ 2)) - shrinkI p (val delta) Cr i j) <= 64 * INR p * (u53 * (M * M)) + E0 + 12 * (u53 * (M * M))).
    { intros i j Hi Hj. destruct (SH i j Hi Hj) as (F1 & Q1 & B1). destruct (SH j i Hj Hi) as (F2 & Q2 & B2).
      assert (SJ : shrinkI p (val delta) Cr j i = shrinkI p (val delta) Cr i j).
      { unfold shrinkI, Cr. rewrite (sym_ewa_cov (val r) nb (reals xs) p j i Hj Hi). f_equal. f_equal. unfold rI. rewrite Nat.eqb_sym. reflexivity. }
      rewrite SJ in Q2. destruct (sym_entry M ML MH _ _ _ F1 F2 B1 B2 _ Q1 Q2) as (F & _ & E). split; [exact F|exact E]. }
    exists o. eexists. eexists. exists nb. split; [exact E1|]. split; [|split; [exact Nb'|split]].
    + unfold finite_attributes. split; [rewrite E3; reflexivity|]. split; [exact E4|]. split; [apply tab_length|]. split; [apply is_mat_tab2|]. split.
      * apply Forall_tab. intros i Hi. apply (Am i Hi).
      * apply is_mat_Forall_tab2. intros i j Hi Hj. apply (SY i j Hi Hj).
    + intros i Hi. rewrite vget_tab by exact Hi. destruct (Am i Hi) as (_ & E). unfold xs in E. rewrite reals_coords in E. unfold errm, real64, val, Rdiv in *.
      assert (P43 : pow2 (-43) = 1024 * u53) by (rewrite pow2_bpow; unfold u53; simpl; lra). rewrite P43. lra.
    + intros i j Hi Hj. unfold entry64. rewrite mget_tab by auto. destruct (SY i j Hi Hj) as (_ & E). unfold Cr, xs in E. rewrite reals_coords in E.
      assert (P38 : pow2 (-38) = 32768 * u53) by (rewrite pow2_bpow; unfold u53; simpl; lra). assert (P46 : pow2 (-46) = 128 * u53) by (rewrite pow2_bpow; unfold u53; simpl; lra).
      rewrite P38, P46. assert (US : 0 < u53 * (M * M)) by (apply Rmult_lt_0_compat; [exact u53_pos|exact SP]). assert (PB : 1 <= INR p) by (replace 1 with (INR 1) by reflexivity; now apply le_INR).
      assert (PU : u53 * (M * M) <= INR p * (u53 * (M * M))) by (rewrite <- (Rmult_1_l (u53 * (M * M))) at 1; apply Rmult_le_compat_r; lra).
      unfold E0, errc, Rdiv in E. unfold real64, val, Rdiv in *. lra.
Qed.

(** ** location_ of the three shrinkage estimators (whatever happens to their covariance) *)
Section Loc.
  Context {C : EstClass NumB} (mk : bool -> c_P C).
  Context (HD : (forall b, c_diff C (mk b) = b) /\ same_hooks (mk true) (mk false)).
  Context (p nb : nat) (r : NumB) {A : Type} (emb : A -> c_St C) (step : A -> (nat -> NumB) -> A) (a0 : A) (pr : A -> fst3 (N := NumB)).
  Context (H0 : c_init C (mk false) p = Ok (emb a0)).
  Context (HS : forall a x, c_update C (mk false) (emb a) (tab p x) = Ok (emb (step a x))).
  Context (HN : forall a, c_nsamples C (emb a) = Ok (fn (pr a))).
  Context (HM : forall a, c_mean C (mk false) (emb a) = Ok (tab p (fm_ (pr a)))).
  Context (HP : forall a x, pr (step a x) = f_ewa r nb (pr a) x) (HP0 : pr a0 = f0).
  Lemma loc64 diff rows M : (1 <= p)%nat -> rate64 r -> (5 <= nb <= 250)%nat -> rows_of_length p rows -> absorbed diff rows <> [] -> moderate M -> rows_within M (absorbed diff rows) ->
    exists o loc, fitted64 (mk diff) rows o /\ location_ o = Ok loc /\ length loc = p /\ Forall finite64 loc /\
      (forall i, (i < p)%nat -> Rabs (real64 (vget loc i) - ewa_mean (real64 r) nb (real_rows (absorbed diff rows)) i) <= pow2 (-43) * M / real64 r).
  Proof.
    intros P1 HR Nb Hr Hx HMo Hw. pose proof (moderate_lo _ HMo) as ML. pose proof (moderate_hi _ HMo) as MH.
    pose proof (within_coords p M _ (absorbed_rows p diff rows Hr) Hw) as W. set (xs := coords (absorbed diff rows)) in *.
    pose proof (ewa_acc M ML MH r (rate_fin _ HR) (rate_lo _ HR) (rate_hi _ HR) nb ltac:(lia) ltac:(lia) p _ W) as [Am _].
    assert (Hl : length xs = length (absorbed diff rows)) by apply map_length.
    assert (Ln : exists n, length xs = S n). { rewrite Hl. destruct (absorbed diff rows); [congruence|]. eexists. reflexivity. } destruct Ln as (n & Ln).
    destruct (run_tab (C := C) mk HD emb step p a0 H0 HS xs diff rows n Hr) as (o & E1 & _ & E3 & _).
    - unfold xs. apply coords_tab. now apply absorbed_rows.
    - destruct xs; [discriminate Ln|discriminate].
    - rewrite HN, (pr_fold nb r step pr HP), HP0, fn_ewa, Ln. reflexivity.
    - rewrite HM, (pr_fold nb r step pr HP), HP0 in E3.
      exists o. eexists. split; [exact E1|]. split; [exact E3|]. split; [apply tab_length|]. split.
      + apply Forall_tab. intros i Hi. apply (Am i Hi).
      + intros i Hi. rewrite vget_tab by exact Hi. destruct (Am i Hi) as (_ & E). unfold xs in E. rewrite reals_coords in E. unfold errm, real64, val, Rdiv in *.
        assert (P43 : pow2 (-43) = 1024 * u53) by (rewrite pow2_bpow; unfold u53; simpl; lra). rewrite P43. unfold xs. lra.
  Qed.
End Loc.
Theorem C78_shrinkage_location_accuracy p r delta target diff rows M :
  (1 <= p)%nat -> rate64 r -> rows_of_length p rows -> absorbed diff rows <> [] -> moderate M -> rows_within M (absorbed diff rows) ->
  exists nb, (nb <= burn_len (real64 r) <= nb + 1)%nat /\
    let near loc := length loc = p /\ Forall finite64 loc /\
      forall i, (i < p)%nat -> Rabs (real64 (vget loc i) - ewa_mean (real64 r) nb (real_rows (absorbed diff rows)) i) <= pow2 (-43) * M / real64 r in
    (exists o loc, fitted64 (C := Shrunk) (mkShrP r delta target diff) rows o /\ location_ o = Ok loc /\ near loc) /\
    (exists o loc, fitted64 (C := OAS) (mkEwaP r diff) rows o /\ location_ o = Ok loc /\ near loc) /\
    (exists o loc, fitted64 (C := LedoitWolf) (mkEwaP r diff) rows o /\ location_ o = Ok loc /\ near loc).
Proof.
  intros P1 HR Hr Hx HM Hw. destruct (burn_ok r (rate_fin _ HR) (conj (rate_lo _ HR) (rate_hi _ HR))) as (nb & Eb & Nb & Nb').
  exists nb. split; [exact Nb'|]. cbv zeta. split; [|split].
  - apply (loc64 (C := Shrunk) (fun b => mkShrP r delta target b) ltac:(split; [reflexivity|repeat split; intros; first [discriminate|reflexivity]])
      p nb r (f_ewa_d p r nb) (f_ewa r nb) f0 (fun a => a)); auto.
    + cbn. unfold ewa_init. rewrite Eb. reflexivity.
    + intros a x. apply (ewa_update_tab p r nb a x).
  - apply (loc64 (C := OAS) (fun b => mkEwaP r b) ltac:(split; [reflexivity|repeat split; intros; first [discriminate|reflexivity]])
      p nb r (f_ewa_d p r nb) (f_ewa r nb) f0 (fun a => a)); auto.
    + cbn. unfold ewa_init. rewrite Eb. reflexivity.
    + intros a x. apply (ewa_update_tab p r nb a x).
  - apply (loc64 (C := LedoitWolf) (fun b => mkEwaP r b) ltac:(split; [reflexivity|repeat split; intros; first [discriminate|reflexivity]])
      p nb r (lw_d p r nb) (lw_step p r nb) (f0, n0) fst); auto.
    + cbn. unfold lw_init, ewa_init. cbn [ewa_r]. rewrite Eb. reflexivity.
    + intros a x. apply (lw_update_tab p r nb a x).
Qed.
Example C78_shrunk_witness : let rows := [[b64_of 1; b64_of 2]; [b64_of 3; b64_of (-1)]] : list (vec NumB) in
  exists o loc cov nb, fitted64 (C := Shrunk) (mkShrP rate_half rate_half "identity" false) rows o /\ finite_attributes 2 o loc cov /\
    forall i j, (i < 2)%nat -> (j < 2)%nat -> Rabs (entry64 cov i j - shrinkI 2 (real64 rate_half) (ewa_cov (real64 rate_half) nb (real_rows rows)) i j) <=
      pow2 (-38) * (pow2 4 * pow2 4) / real64 rate_half + INR 2 * pow2 (-46) * (pow2 4 * pow2 4).
Proof.
  intros rows. destruct shrinkage_rows as (A & B & C & _ & _).
  assert (M4 : moderate (pow2 4)). { split; rewrite !pow2_bpow; apply bpow_le; lia. }
  assert (G : 16 <= pow2 4) by (rewrite pow2_bpow; simpl; lra).
  assert (K : forall z, (Z.abs z <= 16)%Z -> finite64 (b64_of z) /\ Rabs (real64 (b64_of z)) <= pow2 4).
  { intros z Hz. destruct (fin_ofZ z) as [F V]; [apply Z.le_trans with 16%Z; [exact Hz|apply Z.leb_le; reflexivity]|]. split; [exact F|].
    unfold real64. change (B2R (b64_of z)) with (val (nofZ (n := NumB) z)). rewrite V, <- abs_IZR. apply Rle_trans with 16; [now apply IZR_le|exact G]. }
  assert (D : rows_within (pow2 4) (absorbed false rows)) by (cbn [absorbed]; unfold rows_within, rows; repeat (apply Forall_cons || apply Forall_nil); apply K; lia).
  assert (H1 : real64 rate_half = / 2). { assert (E : B2SF (rate_half : NumB) = SpecFloat.S754_finite false 4503599627370496 (-53)) by (vm_compute; reflexivity). unfold real64. rewrite (proj2 (B2SF_real _ _ _ E)). simpl. lra. }
  destruct (C78_shrunk_accuracy_uniform_in_time 2 rate_half rate_half false rows (pow2 4)) as (o & loc & cov & nb & E1 & E2 & _ & _ & E5); auto; [lia|apply C|rewrite H1; lra|].
  exists o, loc, cov, nb. split; [exact E1|]. split; [exact E2|]. exact E5.
Qed.

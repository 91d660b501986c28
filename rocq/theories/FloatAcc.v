(** * Accuracy of the running mean and covariance in binary64 (proof infrastructure for Props_Float.v) *)
From Coq Require Import Reals ZArith List Bool Lia Lra Psatz.
From Flocq Require Import Core BinarySingleNaN.
From Verif Require Import Num NumBin Numpy Spec RMat RealSpec EwaReal EmpFacts FloatBase FloatRun FloatErr.
Import ListNotations.
Local Open Scope R_scope.

Definition reals (xs : list (nat -> NumB)) : list obs := map (fun x i => val (x i)) xs.
Definition within (p : nat) (M : R) (xs : list (nat -> NumB)) : Prop :=
  forall x, In x xs -> forall i, (i < p)%nat -> fin (x i) /\ Rabs (val (x i)) <= M.
Lemma within_snoc p M xs x : within p M (xs ++ [x]) ->
  within p M xs /\ (forall i, (i < p)%nat -> fin (x i) /\ Rabs (val (x i)) <= M).
Proof. intros H. split; [intros y Hy; apply H, in_or_app; auto|apply H, in_or_app; simpl; auto]. Qed.
Lemma reals_snoc xs x : reals (xs ++ [x]) = reals xs ++ [fun i => val (x i)].
Proof. unfold reals. now rewrite map_app. Qed.
Lemma reals_length xs : length (reals xs) = length xs. Proof. apply map_length. Qed.
Lemma reals_within p M xs i : within p M xs -> (i < p)%nat -> forall x, In x (reals xs) -> - M <= x i <= M.
Proof.
  intros H Hi x Hx. unfold reals in Hx. apply in_map_iff in Hx. destruct Hx as (y & <- & Hy).
  destruct (H y Hy i Hi) as [_ B]. apply Rabs_le_inv in B. exact B.
Qed.
Lemma mean_abs p M xs i : 0 <= M -> within p M xs -> (i < p)%nat -> Rabs (mean_of (reals xs) i) <= M.
Proof.
  intros HM H Hi. destruct xs as [|y ys]; [cbn [reals map]; rewrite mean_nil, Rabs_R0; lra|].
  apply Rabs_le. apply mean_range; [discriminate|]. now apply (reals_within p).
Qed.
Lemma pcov_abs p M xs i j : 0 <= M -> within p M xs -> (i < p)%nat -> (j < p)%nat -> Rabs (pcov_of (reals xs) i j) <= 4 * (M * M).
Proof.
  intros HM. induction xs as [|x xs IH] using rev_ind; intros H Hi Hj.
  - cbn [reals map]. rewrite pcov_nil, Rabs_R0. nra.
  - destruct (within_snoc _ _ _ _ H) as [H1 H2]. specialize (IH H1 Hi Hj). rewrite reals_snoc, pcov_snoc, <- reals_snoc.
    pose proof (mean_abs p M xs i HM H1 Hi) as Bi. pose proof (mean_abs p M _ j HM H Hj) as Bj.
    destruct (H2 i Hi) as [_ Xi]. destruct (H2 j Hj) as [_ Xj].
    pose proof (abs_sub _ _ _ _ Xi Bi) as Si. pose proof (abs_sub _ _ _ _ Xj Bj) as Sj.
    pose proof (abs_mul _ _ _ _ Si Sj) as K. rewrite reals_length. set (k := INR (length xs)).
    assert (Hk : 0 <= k) by apply pos_INR. rewrite S_INR. fold k.
    set (P := pcov_of (reals xs) i j) in *. set (s := val (x i) - mean_of (reals xs) i) in *. set (t := val (x j) - mean_of (reals (xs ++ [x])) j) in *.
    replace (P * k / (k + 1) + s * (t / (k + 1))) with ((P * k + s * t) / (k + 1)) by (field; lra).
    unfold Rdiv. rewrite Rabs_mult, (Rabs_right (/ (k + 1))) by (apply Rle_ge; left; apply Rinv_0_lt_compat; lra).
    apply Rmult_le_reg_r with (k + 1); [lra|]. rewrite Rmult_assoc, Rinv_l by lra. rewrite Rmult_1_r.
    assert (Bk : Rabs k <= k) by (rewrite Rabs_right; lra).
    pose proof (abs_add _ _ _ _ (abs_mul P k _ _ IH Bk) K). nra.
Qed.

(** ** The mean stays in range (any magnitude below overflow) *)
Lemma mean_range_acc p B xs i : (i < p)%nat -> (Z.of_nat (length xs) <= 2 ^ 53)%Z -> within p B xs -> 2 * B <= big -> xs <> [] ->
  let m := fm_ (fold_left f_emp xs f0) i in
  fin m /\ forall lo hi, (forall x, In x xs -> lo <= val (x i) <= hi) -> lo <= val m <= hi.
Proof.
  intros Hi. induction xs as [|x xs IH] using rev_ind; [congruence|]. intros Hl Hw HB _. cbv zeta.
  rewrite fold_left_app. cbn [fold_left]. set (a := fold_left f_emp xs f0) in *.
  assert (Na : fn a = length xs) by (unfold a; rewrite fn_emp; reflexivity).
  destruct (within_snoc _ _ _ _ Hw) as [H1 H2]. destruct (H2 i Hi) as [Fx Bx]. rewrite app_length in Hl. cbn [length] in Hl.
  unfold f_emp. cbn [fm_]. rewrite Na. pose proof (Rabs_pos (val (x i))) as Px.
  destruct xs as [|y ys].
  - cbn [length]. destruct fin_0 as [F0 V0]. destruct (wf_mean_first (fm_ a i) (x i)) as [F V]; auto; [lra|].
    split; [exact F|]. intros lo hi H. rewrite V. apply H. simpl; auto.
  - set (xs := y :: ys) in *. destruct IH as [Fm Rm]; auto; [lia|discriminate|].
    assert (Bm : Rabs (val (fm_ a i)) <= B).
    { apply Rabs_le. apply Rm. intros z Hz. apply Rabs_le_inv. now apply H1. }
    assert (L2 : (2 <= S (length xs))%nat) by (unfold xs; simpl; lia).
    destruct (wf_mean_between (S (length xs)) (fm_ a i) (x i) B L2 ltac:(lia) Fm Fx Bm Bx HB) as [F K].
    split; [exact F|]. intros lo hi H. assert (R1 : lo <= val (fm_ a i) <= hi) by (apply Rm; intros; apply H, in_or_app; auto).
    assert (R2 : lo <= val (x i) <= hi) by (apply H, in_or_app; simpl; auto).
    unfold Rmin, Rmax in K. destruct (Rle_dec (val (fm_ a i)) (val (x i))); lra.
Qed.

Section Acc.
  Context (M : R) (ML : mag_lo <= M) (MH : M <= mag_hi).
  Lemma Mpos : 0 < M. Proof. apply Rlt_le_trans with mag_lo; [apply bpow_gt_0|exact ML]. Qed.
  Lemma hiS : 1152921504606846976 * (M * M) <= big.
  Proof. apply hi_sq. pose proof Mpos. lra. Qed.
  Lemma hiL : 1152921504606846976 * M <= big.
  Proof. apply hi_lin. pose proof Mpos. lra. Qed.

  Lemma wf_cov_ok n c xi mi xj mj : (1 <= n)%nat -> (Z.of_nat n <= 2 ^ 47)%Z ->
    fin c -> fin xi -> fin mi -> fin xj -> fin mj ->
    Rabs (val c) <= 5 * (M * M) -> Rabs (val xi) <= M -> Rabs (val mi) <= M -> Rabs (val xj) <= M -> Rabs (val mj) <= M ->
    let k := (n - 1)%nat in
    let c' := wf_cov (nofn n) (nofn k) c xi mi xj mj in
    fin c' /\
    val c' = rnd (rnd (rnd (val c * INR k) / INR n) + rnd (rnd (val xi - val mi) * rnd (rnd (val xj - val mj) / INR n))) /\
    Rabs (val c' - (val c * INR k / INR n + (val xi - val mi) * (val xj - val mj) / INR n)) <= 48 * (u53 * (M * M)).
  Proof.
    intros Hn Hn' Fc Fxi Fmi Fxj Fmj Bc Bxi Bmi Bxj Bmj k c'.
    destruct (fin_nofn n) as [F1 V1]; [lia|]. destruct (fin_nofn k) as [F2 V2]; [unfold k; lia|].
    assert (N1 : 1 <= INR n) by (apply le_INR in Hn; simpl in Hn; lra).
    assert (NH : INR n <= 140737488355328) by (rewrite INR_IZR_INZ; apply IZR_le in Hn'; exact Hn').
    assert (K : 0 <= INR k <= INR n) by (split; [apply pos_INR|apply le_INR; unfold k; lia]).
    pose proof Mpos as MP. pose proof hiS as HS. pose proof hiL as HL. assert (SP : 0 < M * M) by nra.
    pose proof (cov_step_err M ML (INR n) (INR k) (val c) (val xi) (val mi) (val xj) (val mj) N1 K
      (val_fmt _) (val_fmt _) (val_fmt _) (val_fmt _) (val_fmt _) Bc Bxi Bmi Bxj Bmj) as E. cbv zeta in E.
    destruct E as (E1 & E2 & E3 & E4 & E5 & E6 & E7 & E8). unfold c', wf_cov.
    destruct (fin_mul c (nofn k) Fc F2) as [Fa Va]; [rewrite V2; nra|]. rewrite V2 in Va.
    destruct (fin_div _ (nofn n) Fa F1) as [Fb Vb]; [rewrite V1; lra|rewrite V1, Va; lra|]. rewrite V1, Va in Vb.
    destruct (fin_sub xi mi Fxi Fmi) as [Fd Vd]; [lra|].
    destruct (fin_sub xj mj Fxj Fmj) as [Fe Ve]; [lra|].
    destruct (fin_div _ (nofn n) Fe F1) as [Fg Vg]; [rewrite V1; lra|rewrite V1, Ve; lra|]. rewrite V1, Ve in Vg.
    destruct (fin_mul _ _ Fd Fg) as [Fw Vw]; [rewrite Vd, Vg; lra|]. rewrite Vd, Vg in Vw.
    destruct (fin_add _ _ Fb Fw) as [Fo Vo]; [rewrite Vb, Vw; lra|]. rewrite Vb, Vw in Vo.
    split; [exact Fo|]. split; [exact Vo|]. rewrite Vo. exact E8.
  Qed.

  Definition acc_ok (p : nat) (xs : list (nat -> NumB)) (a : fst3 (N := NumB)) : Prop :=
    (forall i, (i < p)%nat -> fin (fm_ a i) /\ Rabs (val (fm_ a i)) <= M /\
       Rabs (val (fm_ a i) - mean_of (reals xs) i) <= INR (length xs) * (4 * (u53 * M))) /\
    (forall i j, (i < p)%nat -> (j < p)%nat -> fin (fc a i j) /\
       Rabs (val (fc a i j) - pcov_of (reals xs) i j) <= INR (length xs) * (64 * (u53 * (M * M)))).
  Lemma cov_bound p xs a i j : within p M xs -> (Z.of_nat (length xs) <= 2 ^ 47)%Z -> acc_ok p xs a -> (i < p)%nat -> (j < p)%nat ->
    Rabs (val (fc a i j)) <= 5 * (M * M).
  Proof.
    intros Hw Hl [_ H] Hi Hj. destruct (H i j Hi Hj) as [_ E]. pose proof Mpos.
    pose proof (abs_bound _ _ _ _ E (pcov_abs p M xs i j ltac:(lra) Hw Hi Hj)) as B.
    assert (NH : INR (length xs) <= 140737488355328) by (rewrite INR_IZR_INZ; apply IZR_le in Hl; exact Hl).
    assert (0 < M * M) by nra. rewrite u53_val in B. nra.
  Qed.
  Lemma emp_acc p xs : within p M xs -> (Z.of_nat (length xs) <= 2 ^ 47)%Z -> acc_ok p xs (fold_left f_emp xs f0).
  Proof.
    pose proof Mpos as MP. pose proof hiS as HS. pose proof hiL as HL. pose proof u53_pos as UP.
    induction xs as [|x xs IH] using rev_ind; intros Hw Hl.
    - destruct fin_0 as [F0 V0]. split; intros; cbn [fold_left f0 fm_ fc reals map length INR].
      + rewrite V0, mean_nil, Rminus_0_r, Rabs_R0, Rmult_0_l. split; [exact F0|]. split; lra.
      + rewrite V0, pcov_nil, Rminus_0_r, Rabs_R0, Rmult_0_l. split; [exact F0|]. lra.
    - destruct (within_snoc _ _ _ _ Hw) as [H1 H2]. rewrite app_length in Hl. cbn [length] in Hl.
      assert (Hl1 : (Z.of_nat (length xs) <= 2 ^ 47)%Z) by lia. specialize (IH H1 Hl1).
      rewrite fold_left_app. cbn [fold_left]. set (a := fold_left f_emp xs f0) in *.
      assert (Na : fn a = length xs) by (unfold a; rewrite fn_emp; reflexivity).
      set (n := S (length xs)). assert (L1 : length (xs ++ [x]) = n) by (rewrite app_length; cbn [length]; unfold n; lia).
      assert (N1 : 1 <= INR n) by (unfold n; rewrite S_INR; pose proof (pos_INR (length xs)); lra).
      assert (NK : INR (length xs) = INR n - 1) by (unfold n; rewrite S_INR; lra).
      assert (NZ : (Z.of_nat n <= 2 ^ 47)%Z) by (unfold n; lia).
      assert (NH : INR n <= 140737488355328) by (rewrite INR_IZR_INZ; apply IZR_le in NZ; exact NZ).
      assert (Cb : forall i j, (i < p)%nat -> (j < p)%nat -> Rabs (val (fc a i j)) <= 5 * (M * M)) by (intros; now apply (cov_bound p xs)).
      destruct IH as [IHm IHc].
      set (a' := f_emp a x).
      assert (Em : forall i, fm_ a' i = wf_mean (nofn n) (fm_ a i) (x i)) by (intros; unfold a', f_emp; cbn [fm_]; rewrite Na; reflexivity).
      assert (Hm : forall i, (i < p)%nat -> fin (fm_ a' i) /\ Rabs (val (fm_ a' i)) <= M /\
        Rabs (val (fm_ a' i) - mean_of (reals (xs ++ [x])) i) <= INR n * (4 * (u53 * M))).
      { intros i Hi. destruct (IHm i Hi) as (Fm & Bm & Er). destruct (H2 i Hi) as [Fx Bx]. rewrite Em.
        rewrite reals_snoc, mean_snoc, reals_length. fold n.
        destruct (Nat.eq_dec (length xs) 0) as [E0|E0].
        - assert (xs = []) by (destruct xs; [auto|discriminate]). subst xs. cbn [length] in n.
          destruct (wf_mean_first (fm_ a i) (x i) Fm (proj2 fin_0) Fx) as [F V]; [lra|].
          split; [exact F|]. unfold n. rewrite V. split; [exact Bx|]. cbn [reals map]. rewrite mean_nil. cbn [INR].
          replace (val (x i) - (0 + (val (x i) - 0) / 1)) with 0 by field. rewrite Rabs_R0. nra.
        - assert (L2 : (2 <= n)%nat) by (unfold n; lia).
          destruct (wf_mean_next n (fm_ a i) (x i) M L2 ltac:(lia) Fm Fx Bm Bx ltac:(lra)) as (F & V & Kb).
          assert (Bb : Rabs (val (fm_ a i) + rnd (rnd (val (x i) - val (fm_ a i)) / INR n)) <= M).
          { apply Rabs_le. apply Rabs_le_inv in Bm. apply Rabs_le_inv in Bx. unfold Rmin, Rmax in Kb. destruct (Rle_dec (val (fm_ a i)) (val (x i))); lra. }
          split; [exact F|]. split.
          + destruct (wf_mean_between n (fm_ a i) (x i) M L2 ltac:(lia) Fm Fx Bm Bx ltac:(lra)) as [_ Kc].
            apply Rabs_le. apply Rabs_le_inv in Bm. apply Rabs_le_inv in Bx. unfold Rmin, Rmax in Kc. destruct (Rle_dec (val (fm_ a i)) (val (x i))); lra.
          + assert (N2 : 2 <= INR n) by (pose proof (le_INR 2 n L2) as L3; replace (INR 2) with 2 in L3 by (simpl; lra); exact L3).
            pose proof (mean_step_err M MP (eta_lin M ML) (INR n) (val (fm_ a i)) (val (x i)) N2 (val_fmt _) (val_fmt _) Bm Bx Bb) as Es.
            rewrite <- V in Es. set (mu := mean_of (reals xs) i) in *. set (m := val (fm_ a i)) in *. set (y := val (x i)) in *.
            assert (E3 : Rabs (m + (y - m) / INR n - (mu + (y - mu) / INR n)) <= (INR n - 1) * (4 * (u53 * M))).
            { replace (m + (y - m) / INR n - (mu + (y - mu) / INR n)) with ((m - mu) * ((INR n - 1) / INR n)) by (field; lra).
              rewrite NK in Er. rewrite <- (Rmult_1_r ((INR n - 1) * (4 * (u53 * M)))). apply abs_mul; [exact Er|].
              rewrite Rabs_right; [|apply Rle_ge; unfold Rdiv; apply Rmult_le_pos; [lra|left; apply Rinv_0_lt_compat; lra]].
              apply Rmult_le_reg_r with (INR n); [lra|]. unfold Rdiv. rewrite Rmult_assoc, Rinv_l by lra. lra. }
            pose proof (abs_chain _ _ _ _ _ Es E3). lra. }
      split; [rewrite L1; exact Hm|].
      intros i j Hi Hj. rewrite L1.
      destruct (IHm i Hi) as (Fmi & Bmi & Eri). destruct (Hm j Hj) as (Fmj & Bmj & Erj). destruct (IHc i j Hi Hj) as [Fc Ec].
      destruct (H2 i Hi) as [Fxi Bxi]. destruct (H2 j Hj) as [Fxj Bxj].
      assert (Ecv : fc a' i j = wf_cov (nofn n) (nofn (n - 1)) (fc a i j) (x i) (fm_ a i) (x j) (fm_ a' j)).
      { rewrite Em. unfold a', f_emp. cbn [fc]. rewrite Na. replace (n - 1)%nat with (length xs) by (unfold n; lia). reflexivity. }
      rewrite Ecv.
      destruct (wf_cov_ok n (fc a i j) (x i) (fm_ a i) (x j) (fm_ a' j) ltac:(unfold n; lia) NZ Fc Fxi Fmi Fxj Fmj (Cb i j Hi Hj) Bxi Bmi Bxj Bmj) as (F & _ & E).
      split; [exact F|]. set (c' := val (wf_cov _ _ _ _ _ _ _)) in *. clearbody c'. clear Ecv F.
      rewrite reals_snoc, pcov_snoc, <- reals_snoc, reals_length. fold n.
      replace (n - 1)%nat with (length xs) in E by (unfold n; lia). rewrite NK in *.
      pose proof (mean_abs p M xs i ltac:(lra) H1 Hi) as Bmu. pose proof (mean_abs p M _ j ltac:(lra) Hw Hj) as Bnu.
      set (mu := mean_of (reals xs) i) in *. set (nu := mean_of (reals (xs ++ [x])) j) in *. set (P := pcov_of (reals xs) i j) in *.
      set (c := val (fc a i j)) in *. set (mi := val (fm_ a i)) in *. set (mj := val (fm_ a' j)) in *. set (xi := val (x i)) in *. set (xj := val (x j)) in *.
      clearbody mu nu P c mi mj xi xj. set (N := INR n) in *. clearbody N.
      assert (UM : 0 < u53 * M) by nra. assert (US : 0 < u53 * (M * M)) by nra.
      assert (E2 : Rabs (c * (N - 1) / N + (xi - mi) * (xj - mj) / N - (P * (N - 1) / N + (xi - mu) * ((xj - nu) / N)))
                   <= (N - 1) * (64 * (u53 * (M * M))) + 16 * (u53 * (M * M))).
      { replace (c * (N - 1) / N + (xi - mi) * (xj - mj) / N - (P * (N - 1) / N + (xi - mu) * ((xj - nu) / N)))
          with ((c - P) * ((N - 1) / N) + ((xi - mi) * (nu - mj) + (mu - mi) * (xj - nu)) / N) by (field; lra).
        apply abs_add.
        - rewrite <- (Rmult_1_r ((N - 1) * (64 * (u53 * (M * M))))). apply abs_mul; [exact Ec|].
          rewrite Rabs_right; [|apply Rle_ge; unfold Rdiv; apply Rmult_le_pos; [lra|left; apply Rinv_0_lt_compat; lra]].
          apply Rmult_le_reg_r with N; [lra|]. unfold Rdiv. rewrite Rmult_assoc, Rinv_l by lra. lra.
        - rewrite Rabs_minus_sym in Erj. rewrite Rabs_minus_sym in Eri.
          pose proof (abs_mul _ _ _ _ (abs_sub _ _ _ _ Bxi Bmi) Erj) as K1.
          pose proof (abs_mul _ _ _ _ Eri (abs_sub _ _ _ _ Bxj Bnu)) as K2.
          pose proof (abs_add _ _ _ _ K1 K2) as K3.
          unfold Rdiv. rewrite Rabs_mult, (Rabs_right (/ N)) by (apply Rle_ge; left; apply Rinv_0_lt_compat; lra).
          apply Rmult_le_reg_r with N; [lra|]. rewrite Rmult_assoc, Rinv_l by lra. nra. }
      pose proof (abs_chain _ _ _ _ _ E E2). lra.
  Qed.

  (** variances stay nonnegative *)
  Lemma emp_var_nonneg p xs i : within p M xs -> (Z.of_nat (length xs) <= 2 ^ 47)%Z -> (i < p)%nat ->
    0 <= val (fc (fold_left f_emp xs f0) i i).
  Proof.
    induction xs as [|x xs IH] using rev_ind; intros Hw Hl Hi.
    - cbn [fold_left f0 fc]. destruct fin_0 as [_ ->]. lra.
    - destruct (within_snoc _ _ _ _ Hw) as [H1 H2]. pose proof Hl as Hl0. rewrite app_length in Hl. cbn [length] in Hl.
      assert (Hl1 : (Z.of_nat (length xs) <= 2 ^ 47)%Z) by lia. specialize (IH H1 Hl1 Hi).
      pose proof (emp_acc p xs H1 Hl1) as A. pose proof (emp_acc p _ Hw Hl0) as A'.
      rewrite fold_left_app in *. cbn [fold_left] in *. set (a := fold_left f_emp xs f0) in *.
      assert (Na : fn a = length xs) by (unfold a; rewrite fn_emp; reflexivity).
      pose proof (cov_bound p xs a i i H1 Hl1 A Hi Hi) as Cb. destruct A as [Am Ac]. destruct A' as [Am' _].
      destruct (Am i Hi) as (Fm & Bm & _). destruct (Am' i Hi) as (Fm' & Bm' & _). destruct (Ac i i Hi Hi) as [Fc _]. destruct (H2 i Hi) as [Fx Bx].
      set (n := S (length xs)).
      assert (Em : fm_ (f_emp a x) i = wf_mean (nofn n) (fm_ a i) (x i)) by (unfold f_emp; cbn [fm_]; rewrite Na; reflexivity).
      assert (Ecv : fc (f_emp a x) i i = wf_cov (nofn n) (nofn (n - 1)) (fc a i i) (x i) (fm_ a i) (x i) (fm_ (f_emp a x) i)).
      { rewrite Em. unfold f_emp. cbn [fc]. rewrite Na. replace (n - 1)%nat with (length xs) by (unfold n; lia). reflexivity. }
      rewrite Ecv.
      destruct (wf_cov_ok n (fc a i i) (x i) (fm_ a i) (x i) (fm_ (f_emp a x) i) ltac:(unfold n; lia) ltac:(unfold n; lia) Fc Fx Fm Fx Fm' Cb Bx Bm Bx Bm') as (_ & V & _).
      rewrite V. clear V Ecv. assert (N1 : 0 < INR n) by (apply lt_0_INR; unfold n; lia).
      assert (IN : 0 < / INR n) by now apply Rinv_0_lt_compat.
      apply rnd_nonneg. apply Rplus_le_le_0_compat.
      + apply rnd_nonneg. unfold Rdiv. apply Rmult_le_pos; [|lra]. apply rnd_nonneg. apply Rmult_le_pos; [exact IH|apply pos_INR].
      + apply rnd_nonneg.
        assert (S : (val (fm_ a i) <= val (fm_ (f_emp a x) i) <= val (x i)) \/ (val (x i) <= val (fm_ (f_emp a x) i) <= val (fm_ a i))).
        { rewrite Em. destruct (Nat.eq_dec (length xs) 0) as [E0|E0].
          - assert (xs = []) by (destruct xs; [auto|discriminate]). subst xs. unfold n. cbn [length]. pose proof hiL. pose proof Mpos.
            destruct (wf_mean_first (fm_ a i) (x i) Fm (proj2 fin_0) Fx) as [_ ->]; [lra|]. destruct (Rle_or_lt (val (fm_ a i)) (val (x i))); [left|right]; lra.
          - pose proof hiL. pose proof Mpos.
            destruct (wf_mean_between n (fm_ a i) (x i) M ltac:(unfold n; lia) ltac:(unfold n; lia) Fm Fx Bm Bx ltac:(lra)) as [_ Kc].
            unfold Rmin, Rmax in Kc. destruct (Rle_dec (val (fm_ a i)) (val (x i))); [left|right]; lra. }
        destruct S as [S|S].
        * apply Rmult_le_pos; [apply rnd_nonneg; lra|]. apply rnd_nonneg. unfold Rdiv. apply Rmult_le_pos; [apply rnd_nonneg; lra|lra].
        * assert (A1 : rnd (val (x i) - val (fm_ a i)) <= 0) by (apply rnd_nonpos; lra).
          assert (A2 : rnd (rnd (val (x i) - val (fm_ (f_emp a x) i)) / INR n) <= 0).
          { apply rnd_nonpos. assert (rnd (val (x i) - val (fm_ (f_emp a x) i)) <= 0) by (apply rnd_nonpos; lra). unfold Rdiv. nra. }
          nra.
  Qed.
  (** the symmetrised entries *)
  Lemma sym_entry c d C : fin c -> fin d -> Rabs (val c) <= 5 * (M * M) -> Rabs (val d) <= 5 * (M * M) ->
    forall E, Rabs (val c - C) <= E -> Rabs (val d - C) <= E ->
    fin (ndiv (nadd c d) (nofZ 2)) /\ val (ndiv (nadd c d) (nofZ 2)) = rnd (rnd (val c + val d) / 2) /\
    Rabs (val (ndiv (nadd c d) (nofZ 2)) - C) <= E + 12 * (u53 * (M * M)).
  Proof.
    intros Fc Fd Bc Bd E Ec Ed. pose proof hiS. pose proof Mpos. assert (SP : 0 < M * M) by nra.
    pose proof (abs_add _ _ _ _ Bc Bd) as Bs. destruct (fin_add c d Fc Fd) as [F1 V1]; [lra|].
    pose proof (rnd_add_err (val c) (val d) (val_fmt _) (val_fmt _)) as E1. pose proof u53_pos.
    assert (E1' : Rabs (rnd (val c + val d) - (val c + val d)) <= 10 * (u53 * (M * M))) by nra.
    pose proof (abs_bound _ _ _ _ E1' Bs) as B1. pose proof u53_val as UV. assert (US : u53 * (M * M) <= M * M / 1000) by (rewrite UV; lra).
    destruct fin_2 as [F2 V2]. pose proof (abs_div_ge2 _ 2 _ ltac:(lra) B1) as B2.
    destruct (fin_div _ (nofZ 2) F1 F2) as [F3 V3]; [rewrite V2; lra|rewrite V1, V2; lra|]. rewrite V1, V2 in V3.
    split; [exact F3|]. split; [exact V3|]. rewrite V3.
    pose proof (rnd_err (rnd (val c + val d) / 2)) as E2. pose proof (eta_sq M ML) as ES. pose proof eta_pos.
    assert (E2' : Rabs (rnd (rnd (val c + val d) / 2) - rnd (val c + val d) / 2) <= 6 * (u53 * (M * M))) by nra.
    assert (E3 : Rabs (rnd (val c + val d) / 2 - C) <= 5 * (u53 * (M * M)) + E).
    { replace (rnd (val c + val d) / 2 - C) with ((rnd (val c + val d) - (val c + val d)) / 2 + ((val c - C) + (val d - C)) / 2) by field.
      pose proof (abs_div_ge2 _ 2 _ ltac:(lra) E1') as K1. pose proof (abs_div_ge2 _ 2 _ ltac:(lra) (abs_add _ _ _ _ Ec Ed)) as K2.
      pose proof (abs_add _ _ _ _ K1 K2). lra. }
    pose proof (abs_chain _ _ _ _ _ E2' E3). nra.
  Qed.
End Acc.

(** * DiagonalCovariance in binary64 (proof infrastructure for Props_Float.v) *)
From Coq Require Import Reals ZArith String List Bool Lia Lra Psatz.
From Flocq Require Import Core BinarySingleNaN.
From Verif Require Import Num NumBin Numpy PyVal LinalgModel StateModel BaseModel Estimators Spec ListLemmas BaseProofs RMat RealSpec EwaReal RunAvg EmpFacts
  FloatBase FloatRun FloatErr FloatAcc FloatEwa.
Import ListNotations.
Local Open Scope string_scope.

Section Entries.
  Context {N : Num}.
  Record dst3 := mkD { dn : nat; dm : nat -> N; dv : nat -> N }.
  Definition d0 : dst3 := mkD 0 (fun _ => n0) (fun _ => n0).
  Definition f_diag (r : N) (nb : nat) (a : dst3) (x : nat -> N) : dst3 :=
    let sq i := nmul (nsub (x i) (dm a i)) (nsub (x i) (dm a i)) in
    if Nat.ltb (dn a) nb
    then mkD (S (dn a)) (fun i => wf_mean (nofn (S (dn a))) (dm a i) (x i)) (fun i => wf_mean (nofn (S (dn a))) (dv a i) (sq i))
    else mkD (S (dn a)) (fun i => ew_mean r (dm a i) (x i)) (fun i => ew_mean r (dv a i) (sq i)).
  Definition f_diag_d (p : nat) (r : N) (nb : nat) (a : dst3) : dict N :=
    [("n_dim", VInt p); ("n_samples", VInt (dn a)); ("mean", VArr (A1 (tab p (dm a))));
     ("var", VArr (A1 (tab p (dv a)))); ("r", VNum r); ("n_burn", VInt nb)].
  Ltac rd := cbn [getI getN getV getM getT getN_default dget String.eqb Ascii.eqb Bool.eqb bind app fst snd].
  Lemma diag_update_tab p r nb a x : diag_update (f_diag_d p r nb a) (tab p x) = Ok (f_diag_d p r nb (f_diag r nb a x)).
  Proof.
    unfold diag_update, f_diag_d. rd. unfold vsub at 1. rewrite bc_tab. cbn [bind]. unfold vmul. rewrite bc_tab. cbn [bind]. unfold f_diag.
    change (Nat.leb (S (dn a)) nb) with (Nat.ltb (dn a) nb). destruct (Nat.ltb (dn a) nb).
    - unfold vdivs at 1. rewrite map_tab. unfold vadd at 1. rewrite bc_tab. cbn [bind]. unfold vsub. rewrite bc_tab. cbn [bind].
      unfold vdivs. rewrite map_tab. unfold vadd. rewrite bc_tab. reflexivity.
    - unfold vscale. rewrite !map_tab. unfold vadd. rewrite !bc_tab. reflexivity.
  Qed.
  Lemma dn_diag r nb xs a : dn (fold_left (f_diag r nb) xs a) = (dn a + length xs)%nat.
  Proof.
    revert a. induction xs as [|x xs IH]; intros a; simpl; [lia|]. rewrite IH. unfold f_diag. destruct (Nat.ltb _ _); simpl; lia.
  Qed.
  (** the mean is the one of EwaCovariance *)
  Lemma dm_diag r nb xs : dm (fold_left (f_diag r nb) xs d0) = fm_ (fold_left (f_ewa r nb) xs f0).
  Proof.
    assert (K : forall a b, dm a = fm_ b -> dn a = fn b -> dm (fold_left (f_diag r nb) xs a) = fm_ (fold_left (f_ewa r nb) xs b)).
    { induction xs as [|x xs IH]; intros a b E1 E2; cbn [fold_left]; auto. apply IH.
      - unfold f_diag, f_ewa. rewrite E2. destruct (Nat.ltb (fn b) nb); cbn [dm fm_ f_emp f_ew]; now rewrite E1, ?E2.
      - unfold f_diag, f_ewa. rewrite E2. destruct (Nat.ltb (fn b) nb); reflexivity. }
    now apply K.
  Qed.
  Theorem diag_entries p r nb diff rows : (1 <= p)%nat -> ewa_burn_n r = Ok nb -> rows_of_length p rows -> absorbed diff rows <> [] ->
    let a := fold_left (f_diag r nb) (coords (absorbed diff rows)) d0 in
    let c i j := if Nat.eqb i j then dv a i else n0 in
    exists o, partial_fit (new (C := Diagonal) (mkEwaP r diff)) (In2 rows) = (o, Ok tt) /\
      n_samples_ o = Ok (length (absorbed diff rows)) /\
      location_ o = Ok (tab p (dm a)) /\
      covariance_ o = Ok (tab2 p p (fun i j => ndiv (nadd (c i j) (c j i)) (nofZ 2))).
  Proof.
    intros Hp Hb Hr Hx. set (xs := coords (absorbed diff rows)). intros a c.
    assert (Hl : length xs = length (absorbed diff rows)) by apply map_length.
    destruct (absorbed diff rows) as [|y ys] eqn:Ey; [congruence|].
    assert (K : dn a = S (length ys)) by (unfold a; rewrite dn_diag, Hl; reflexivity).
    destruct (run_tab (C := Diagonal) (fun b => mkEwaP r b) ltac:(split; [reflexivity|repeat split; intros; first [discriminate|reflexivity]])
      (f_diag_d p r nb) (f_diag r nb) p d0 ltac:(cbn; unfold diag_init; cbn [ewa_r]; rewrite Hb; reflexivity)
      (fun a x => diag_update_tab p r nb a x)
      xs diff rows (length ys) Hr) as (o & E1 & E2 & E3 & E4).
    - rewrite Ey. apply coords_tab. rewrite <- Ey. now apply absorbed_rows.
    - destruct xs; [discriminate|discriminate].
    - fold a. clearbody a. cbn. rewrite K. reflexivity.
    - fold a in E3, E4. exists o. split; [exact E1|]. split; [exact E2|]. split; [exact E3|]. rewrite E4.
      assert (D : mdiag (tab p (dv a)) = tab2 p p c).
      { unfold mdiag. rewrite tab_length. apply tab2_ext. intros i j Hi Hj. unfold c. destruct (Nat.eqb i j); [|reflexivity]. unfold vget. now rewrite nth_tab. }
      clearbody a. cbn -[to_symmetric tab2 mdiag tab]. unfold diag_cov. cbn -[to_symmetric tab2 mdiag tab]. rewrite D, to_symmetric_tab by auto. reflexivity.
  Qed.
End Entries.

Local Open Scope R_scope.
Section DiagAcc.
  Context (M : R) (ML : mag_lo <= M) (MH : M <= mag_hi).
  Context (r : NumB) (Fr : fin r) (rl : r_lo <= val r) (r1 : val r <= 1).
  Context (nb : nat) (nb1 : (1 <= nb)%nat) (nb2 : (nb <= 250)%nat).
  Let MP : 0 < M := Mpos M ML.
  Let HS := hiS M ML MH.
  Let HL := hiL M ML MH.
  Let W : R := 5 * (M * M).
  Lemma sq_ok x m : fin x -> fin m -> Rabs (val x) <= M -> Rabs (val m) <= 11 / 10 * M ->
    let q := nmul (nsub x m) (nsub x m) in
    fin q /\ 0 <= val q <= 45 / 10 * (M * M) /\ Rabs (val q - (val x - val m) * (val x - val m)) <= 14 * (u53 * (M * M)).
  Proof.
    intros Fx Fm Bx Bm q. assert (SP : 0 < M * M) by nra.
    pose proof u53_pos as UP. pose proof u53_val as UV. pose proof (eta_sq M ML) as ET. pose proof eta_pos as EP.
    assert (US : 0 < u53 * (M * M) <= M * M / 10000) by (split; [nra|rewrite UV; lra]).
    destruct (rnd_sub_M' M ML _ _ (val_fmt x) (val_fmt m) Bx Bm) as (S & Ed & Bd).
    destruct (fin_sub x m Fx Fm) as [Fd Vd]; [lra|]. set (d := rnd (val x - val m)) in *.
    assert (Bp : Rabs (d * d) <= 446 / 100 * (M * M)) by (pose proof (abs_mul _ _ _ _ Bd Bd); nra).
    destruct (fin_mul _ _ Fd Fd) as [Fp Vp]; [rewrite Vd; lra|]. rewrite Vd in Vp.
    pose proof (rnd_err (d * d)) as Ep. set (w := rnd (d * d)) in *.
    assert (Ep' : Rabs (w - d * d) <= 447 / 100 * (u53 * (M * M))) by nra.
    assert (Bw : Rabs w <= 45 / 10 * (M * M)) by (pose proof (abs_bound _ _ _ _ Ep' Bp); lra).
    assert (E1 : Rabs (d * d - (val x - val m) * (val x - val m)) <= 9 * (u53 * (M * M))).
    { replace (d * d - (val x - val m) * (val x - val m)) with (d * (d - (val x - val m)) + (d - (val x - val m)) * (val x - val m)) by ring.
      pose proof (abs_add _ _ _ _ (abs_mul _ _ _ _ Bd Ed) (abs_mul _ _ _ _ Ed S)). nra. }
    pose proof (abs_chain _ _ _ _ _ Ep' E1).
    split; [exact Fp|]. unfold q. rewrite Vp. split; [|lra]. split; [apply rnd_nonneg; fold d; nra|]. apply Rabs_le_inv in Bw. lra.
  Qed.
  Definition ivar (xs : list obs) (i : nat) : R := rw_avg (val r) nb (fun pre x => dev (val r) nb pre x i * dev (val r) nb pre x i) xs.
  Lemma ivar_range p xs i : within p M xs -> (i < p)%nat -> 0 <= ivar (reals xs) i <= 4 * (M * M).
  Proof.
    pose proof (rpos r rl) as R0. unfold ivar. induction xs as [|x xs IH] using rev_ind; intros H Hi.
    - cbn [reals map]. rewrite rw_avg_nil. nra.
    - destruct (within_snoc _ _ _ _ H) as [H1 H2]. specialize (IH H1 Hi). rewrite reals_snoc, rw_avg_snoc, reals_length. cbv beta.
      pose proof (abs_sub _ _ _ _ (proj2 (H2 i Hi)) (ewa_mean_abs M ML r rl r1 nb nb1 nb2 p xs i H1 Hi)) as B.
      change (val (x i) - ewa_mean (val r) nb (reals xs) i) with (dev (val r) nb (reals xs) (fun k => val (x k)) i) in B.
      set (d := dev (val r) nb (reals xs) (fun k => val (x k)) i) in *.
      assert (D : 0 <= d * d <= 4 * (M * M)). { apply Rabs_le_inv in B. nra. }
      destruct (Nat.ltb (length xs) nb).
      + match goal with |- context [rw_avg ?a ?b ?c ?e] => set (v := rw_avg a b c e) in * end.
        pose proof (inv_S_range (length xs)) as I. unfold Rdiv. set (t := / INR (S (length xs))) in *. nra.
      + match goal with |- context [rw_avg ?a ?b ?c ?e] => set (v := rw_avg a b c e) in * end. nra.
  Qed.
  Let errm := errm M r.
  Let errc := errc M r.
  Definition diag_ok (p : nat) (xs : list (nat -> NumB)) (a : dst3 (N := NumB)) : Prop :=
    forall i, (i < p)%nat -> fin (dv a i) /\ 0 <= val (dv a i) /\
      Rabs (val (dv a i) - ivar (reals xs) i) <= (if Nat.leb (length xs) nb then 5000 * (u53 * (M * M)) / val r + INR (length xs) * (21 * (u53 * (M * M))) else errc).
  Lemma burn_err_le n : (n <= 250)%nat -> 5000 * (u53 * (M * M)) / val r + INR n * (21 * (u53 * (M * M))) <= errc.
  Proof.
    intros H. pose proof (rinv_hi r rl r1) as RI. pose proof u53_pos.
    assert (US : 0 < u53 * (M * M)) by (apply Rmult_lt_0_compat; nra).
    assert (NH : INR n <= 250) by (replace 250 with (INR 250) by (simpl; lra); apply le_INR; lia).
    unfold errc, FloatEwa.errc, Rdiv. set (t := / val r) in *. set (w := u53 * (M * M)) in *. nra.
  Qed.
  Lemma diag_ok_bound p xs a i : within p M xs -> diag_ok p xs a -> (i < p)%nat -> Rabs (val (dv a i) - ivar (reals xs) i) <= errc /\ Rabs (val (dv a i)) <= W.
  Proof.
    intros Hw H Hi. destruct (H i Hi) as (_ & _ & E).
    assert (E' : Rabs (val (dv a i) - ivar (reals xs) i) <= errc).
    { destruct (Nat.leb_spec (length xs) nb); [|exact E]. eapply Rle_trans; [exact E|]. apply burn_err_le. lia. }
    split; [exact E'|]. pose proof (ivar_range p xs i Hw Hi) as Iv. assert (Iv' : Rabs (ivar (reals xs) i) <= 4 * (M * M)) by (rewrite Rabs_right; lra).
    pose proof (abs_bound _ _ _ _ E' Iv'). pose proof (errc_small M ML r rl r1). assert (0 < M * M) by nra. unfold W, errc in *. lra.
  Qed.
  Lemma diag_acc p xs : within p M xs -> diag_ok p xs (fold_left (f_diag r nb) xs d0).
  Proof.
    pose proof (rpos r rl) as R0. pose proof u53_pos as UP. assert (SP : 0 < M * M) by nra. assert (US : 0 < u53 * (M * M)) by nra.
    pose proof u53_val as UV. assert (US2 : u53 * (M * M) <= M * M / 10000) by (rewrite UV; lra).
    assert (WP : 0 < W) by (unfold W; lra).
    assert (WE : eta * 1048576 <= u53 * W). { pose proof (eta_sq M ML). unfold W. lra. }
    assert (WH : 1000 * W <= big) by (unfold W; lra).
    pose proof (rinv_hi r rl r1) as RI. pose proof (r_errm M r rl) as Rm. pose proof (r_errc M r rl) as Rc. fold errm in Rm. fold errc in Rc.
    pose proof (errm_small M ML r rl r1) as Sm. fold errm in Sm.
    induction xs as [|x xs IH] using rev_ind; intros Hw.
    - destruct fin_0 as [F0 V0]. intros i Hi. cbn [fold_left d0 dv reals map length Nat.leb INR]. unfold ivar. rewrite V0, rw_avg_nil, Rminus_0_r, Rabs_R0.
      split; [exact F0|]. split; [lra|]. assert (0 < / val r) by lra. unfold Rdiv. nra.
    - destruct (within_snoc _ _ _ _ Hw) as [H1 H2]. specialize (IH H1). pose proof (ewa_acc M ML MH r Fr rl r1 nb nb1 nb2 p xs H1) as A.
      destruct (ewa_ok_bounds M ML r rl r1 nb nb1 nb2 p xs _ H1 A) as [Bm _]. destruct A as [Am _].
      assert (DM : forall i, dm (fold_left (f_diag r nb) xs d0) i = fm_ (fold_left (f_ewa r nb) xs f0) i) by (intros; now rewrite dm_diag).
      rewrite fold_left_app. cbn [fold_left]. set (a := fold_left (f_diag r nb) xs d0) in *.
      assert (Na : dn a = length xs) by (unfold a; rewrite dn_diag; reflexivity).
      intros i Hi. destruct (diag_ok_bound p xs a i H1 IH Hi) as [Ev Bv]. destruct (IH i Hi) as (Fv & Nv & Ev').
      destruct (Am i Hi) as [Fm Em]. fold errm in Em. specialize (Bm i Hi). rewrite <- DM in Fm, Em, Bm. destruct (H2 i Hi) as [Fx Bx].
      destruct (sq_ok (x i) (dm a i) Fx Fm Bx Bm) as (Fq & Bq & Eq).
      pose proof (ewa_mean_abs M ML r rl r1 nb nb1 nb2 p xs i H1 Hi) as Bmu.
      set (mu := ewa_mean (val r) nb (reals xs) i) in *. set (q := nmul (nsub (x i) (dm a i)) (nsub (x i) (dm a i))) in *.
      assert (AQ : Rabs (val q) <= W) by (unfold W; rewrite Rabs_right; lra).
      set (g := (val (x i) - mu) * (val (x i) - mu)).
      assert (EQ : Rabs (val q - g) <= 14 * (u53 * (M * M)) + 41 / 10 * M * errm).
      { apply (abs_chain _ ((val (x i) - val (dm a i)) * (val (x i) - val (dm a i)))); [exact Eq|]. unfold g.
        replace ((val (x i) - val (dm a i)) * (val (x i) - val (dm a i)) - (val (x i) - mu) * (val (x i) - mu)) with
          ((val (x i) - val (dm a i)) * (mu - val (dm a i)) + (mu - val (dm a i)) * (val (x i) - mu)) by ring.
        rewrite Rabs_minus_sym in Em.
        pose proof (abs_add _ _ _ _ (abs_mul _ _ _ _ (abs_sub _ _ _ _ Bx Bm) Em) (abs_mul _ _ _ _ Em (abs_sub _ _ _ _ Bx Bmu))). nra. }
      assert (GE : 14 * (u53 * (M * M)) + 41 / 10 * M * errm <= 5000 * (u53 * (M * M)) / val r).
      { unfold errm, FloatEwa.errm, Rdiv. set (t := / val r) in *. replace (41 / 10 * M * (1024 * (u53 * M) * t)) with (41984 / 10 * (u53 * (M * M)) * t) by field. nra. }
      assert (Dv : dev (val r) nb (reals xs) (fun k => val (x k)) i * dev (val r) nb (reals xs) (fun k => val (x k)) i = g) by reflexivity.
      rewrite reals_snoc. unfold ivar. rewrite rw_avg_snoc, reals_length. cbv beta. rewrite Dv. fold (ivar (reals xs) i). set (v := ivar (reals xs) i) in *.
      rewrite app_length. cbn [length]. rewrite Nat.add_1_r. change (Nat.leb (S (length xs)) nb) with (Nat.ltb (length xs) nb).
      unfold f_diag. rewrite Na. fold q. destruct (Nat.ltb_spec (length xs) nb) as [L|L].
      + cbn [dv]. fold q. destruct (Nat.leb_spec (length xs) nb) as [_|]; [|lia].
        assert (N1 : 1 <= INR (S (length xs))) by (rewrite S_INR; pose proof (pos_INR (length xs)); lra).
        set (E0 := 5000 * (u53 * (M * M)) / val r) in *.
        assert (E0p : 0 <= E0) by (unfold E0, Rdiv; apply Rmult_le_pos; lra).
        destruct (Nat.eq_dec (length xs) 0) as [Z0|Z0].
        * assert (xs = []) by (destruct xs; [auto|discriminate]). subst xs. cbn [length].
          destruct (wf_mean_first (dv a i) q Fv (proj2 fin_0) Fq) as [F V]; [lra|].
          split; [exact F|]. rewrite V. split; [lra|].
          assert (V0 : v = 0) by (unfold v, ivar; cbn [reals map]; apply rw_avg_nil). rewrite V0. cbn [INR].
          replace (val q - (0 + (g - 0) / 1)) with (val q - g) by field. lra.
        * set (n := S (length xs)) in *. assert (L2 : (2 <= n)%nat) by (unfold n; lia).
          assert (LZ : (Z.of_nat n <= 2 ^ 53)%Z) by (apply Z.le_trans with 251%Z; [unfold n; lia|apply Z.leb_le; reflexivity]).
          destruct (wf_mean_next n (dv a i) q W L2 LZ Fv Fq Bv AQ ltac:(lra)) as (F & V & Kb).
          split; [exact F|].
          assert (Bb : 0 <= val (dv a i) + rnd (rnd (val q - val (dv a i)) / INR n) <= W).
          { pose proof Bv as Bv'. apply Rabs_le_inv in Bv'. pose proof AQ as AQ'. apply Rabs_le_inv in AQ'.
            unfold Rmin, Rmax in Kb. destruct (Rle_dec (val (dv a i)) (val q)); lra. }
          split; [rewrite V; apply rnd_nonneg; lra|].
          assert (N2 : 2 <= INR n) by (pose proof (le_INR 2 n L2) as L3; replace (INR 2) with 2 in L3 by (simpl; lra); exact L3).
          pose proof (mean_step_err W WP WE (INR n) (val (dv a i)) (val q) N2 (val_fmt _) (val_fmt _) Bv AQ ltac:(rewrite Rabs_right; lra)) as Es.
          rewrite <- V in Es.
          assert (NK : INR (length xs) = INR n - 1) by (unfold n; rewrite S_INR; lra). rewrite NK in Ev'.
          set (nn := INR n) in *. clearbody nn.
          assert (E3 : Rabs (val (dv a i) + (val q - val (dv a i)) / nn - (v + (g - v) / nn)) <= E0 + (nn - 1) * (21 * (u53 * (M * M)))).
          { replace (val (dv a i) + (val q - val (dv a i)) / nn - (v + (g - v) / nn)) with ((val (dv a i) - v) * ((nn - 1) / nn) + (val q - g) * (/ nn)) by (field; lra).
            assert (I : 0 < / nn <= 1) by (split; [apply Rinv_0_lt_compat; lra|rewrite <- Rinv_1; apply Rinv_le_contravar; lra]).
            assert (J : (nn - 1) / nn = 1 - / nn) by (field; lra). rewrite J.
            assert (A1 : Rabs (1 - / nn) <= 1 - / nn) by (rewrite Rabs_right; lra).
            assert (A2 : Rabs (/ nn) <= / nn) by (rewrite Rabs_right; lra).
            assert (EQ2 : Rabs (val q - g) <= E0) by lra.
            pose proof (abs_add _ _ _ _ (abs_mul _ _ _ _ Ev' A1) (abs_mul _ _ _ _ EQ2 A2)) as K.
            assert (0 <= (nn - 1) * (21 * (u53 * (M * M)))) by (apply Rmult_le_pos; lra). nra. }
          pose proof (abs_chain _ _ _ _ _ Es E3). unfold W in *. lra.
      + cbn [dv]. fold q.
        destruct (ew_mean_ok W WP WE WH r Fr R0 r1 (dv a i) q Fv Fq ltac:(lra) AQ) as [F K].
        split; [exact F|]. split.
        * unfold ew_mean in *. destruct (one_minus_r r Fr R0 r1) as (Fs & Vs & Es & Bs).
          assert (As : Rabs (val (nsub n1 r)) <= 1) by (rewrite Rabs_right; lra). assert (Ar : Rabs (val r) <= 1) by (rewrite Rabs_right; lra).
          pose proof (abs_mul _ _ _ _ As Bv) as Q1. pose proof (abs_mul _ _ _ _ Ar AQ) as Q2. rewrite Rmult_1_l in Q1, Q2.
          assert (FW : forall y, Rabs y <= W -> Rabs (rnd y) <= 3 * W).
          { intros y Hy. pose proof (abs_bound _ _ _ _ (rnd_err y) Hy). pose proof eta_pos. pose proof (Rabs_pos y). rewrite u53_val in *. lra. }
          destruct (fin_mul _ (dv a i) Fs Fv) as [G1 U1]; [lra|]. destruct (fin_mul _ q Fr Fq) as [G2 U2]; [lra|].
          destruct (fin_add _ _ G1 G2) as [_ U3].
          { rewrite U1, U2. eapply Rle_trans; [apply (abs_add _ _ _ _ (FW _ Q1) (FW _ Q2))|]. lra. }
          rewrite U3, U1, U2. apply rnd_nonneg. apply Rplus_le_le_0_compat; apply rnd_nonneg; apply Rmult_le_pos; lra.
        * assert (K2 : Rabs ((1 - val r) * val (dv a i) + val r * val q - ((1 - val r) * v + val r * g)) <= (1 - val r) * errc + val r * (14 * (u53 * (M * M)) + 41 / 10 * M * errm)).
          { replace ((1 - val r) * val (dv a i) + val r * val q - ((1 - val r) * v + val r * g)) with ((1 - val r) * (val (dv a i) - v) + val r * (val q - g)) by ring.
            apply abs_add; apply abs_mul; try (rewrite Rabs_right; lra); auto. }
          pose proof (abs_chain _ _ _ _ _ K K2) as K3.
          replace (val r * (14 * (u53 * (M * M)) + 41 / 10 * M * errm)) with (val r * (14 * (u53 * (M * M))) + 41 / 10 * M * (val r * errm)) in K3 by ring.
          rewrite Rm in K3. unfold W in K3. nra.
  Qed.
End DiagAcc.

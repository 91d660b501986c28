(** * C75-C78 (and C22): what rounding does to the moment estimators, in IEEE binary64

    Model: the same [emp_update], [ewa_update], [diag_update] as everywhere else, read at the carrier [NumB].
    All statements are about one call with all the rows; C01 (proved for every carrier) says how the rows are
    cut into calls does not matter. *)
From Coq Require Import Reals ZArith String List Bool Lia Lra Psatz.
From Flocq Require Import Core BinarySingleNaN.
From Verif Require Import Num NumBin Numpy PyVal LinalgModel StateModel BaseModel Estimators RegistryModel Spec ListLemmas BaseProofs Shapes ClassShapes
  RMat RealSpec EwaReal EmpFacts RunAvg Props_Stream Props_Shape Props_Moment FloatSpec FloatBase FloatRun FloatErr FloatAcc FloatEwa FloatDiag.
Import ListNotations.
Local Open Scope R_scope.

(** ** Glue *)
Lemma pow2_bpow k : pow2 k = bpow radix2 k. Proof. unfold pow2. symmetry. apply bpow_powerRZ. Qed.
Lemma reals_coords rows : reals (coords rows) = real_rows rows.
Proof. unfold reals, coords, real_rows. rewrite map_map. reflexivity. Qed.
Lemma coords_length {N : Num} (rows : list (vec N)) : length (coords rows) = length rows. Proof. apply map_length. Qed.
Lemma within_coords p B rows : rows_of_length p rows -> rows_within B rows -> within p B (coords rows).
Proof.
  intros Hr Hw x Hx i Hi. unfold coords in Hx. apply in_map_iff in Hx. destruct Hx as (row & <- & Hin).
  unfold rows_of_length in Hr. unfold rows_within in Hw. rewrite Forall_forall in Hr, Hw. specialize (Hw row Hin). rewrite Forall_forall in Hw.
  apply Hw. apply nth_In. rewrite (Hr row Hin). exact Hi.
Qed.
Lemma moderate_lo B : moderate B -> mag_lo <= B. Proof. intros [H _]. rewrite pow2_bpow in H. exact H. Qed.
Lemma moderate_hi B : moderate B -> B <= mag_hi. Proof. intros [_ H]. rewrite pow2_bpow in H. exact H. Qed.
Lemma rate_fin r : rate64 r -> fin r. Proof. intros [H _]. exact H. Qed.
Lemma rate_lo r : rate64 r -> r_lo <= val r. Proof. intros [_ [H _]]. rewrite pow2_bpow in H. exact H. Qed.
Lemma rate_hi r : rate64 r -> val r <= 1. Proof. intros [_ [_ H]]. exact H. Qed.
Lemma absorbed_length_le {N : Num} d (rows : list (vec N)) : (length (absorbed d rows) <= length rows)%nat.
Proof. destruct d; cbn [absorbed]; [rewrite differences_length; lia|lia]. Qed.
Lemma mget_tab {N : Num} p q (f : nat -> nat -> N) i j : (i < p)%nat -> (j < q)%nat -> mget (tab2 p q f) i j = f i j.
Proof. intros Hi Hj. unfold mget. rewrite nth_tab2 by auto. now rewrite nth_tab by auto. Qed.
Lemma vget_tab {N : Num} p (f : nat -> N) i : (i < p)%nat -> vget (tab p f) i = f i.
Proof. intros Hi. unfold vget. now rewrite nth_tab by auto. Qed.
Lemma Forall_tab {A} (P : A -> Prop) p (f : nat -> A) : (forall i, (i < p)%nat -> P (f i)) -> Forall P (tab p f).
Proof. intros H. apply Forall_forall. intros y Hy. unfold tab in Hy. apply in_map_iff in Hy. destruct Hy as (i & <- & Hi). apply H. apply in_seq in Hi. lia. Qed.

(** ** C22 in binary64 *)
Lemma NumB_add_comm (x y : NumB) : nadd x y = nadd y x.
Proof.
  destruct x as [sx|sx| |sx mx ex Hx], y as [sy|sy| |sy my ey Hy]; try reflexivity; try (now destruct sx, sy).
  cbn -[binary_normalize Fplus_naive Z.min]. rewrite (Z.min_comm ey ex). f_equal. unfold Fplus_naive. apply Z.add_comm.
Qed.
Theorem C22_binary64_covariance_is_exactly_symmetric :
  forall (L : LinAlg NumB), la_shapes L -> forall fuel k, In k (registry L fuel) ->
  forall P p cs M, (1 <= p)%nat -> history_of_length p cs ->
    covariance_ (fst (run (new (C := rg_class k) P) cs)) = Ok M -> symmetric_matrix p M.
Proof. intros L. exact (C22_covariance_is_exactly_symmetric NumB L NumB_add_comm). Qed.

(** ** C75: the reported mean never leaves the range of the data *)
Theorem C75_empirical_mean_stays_in_range p diff rows :
  (1 <= p)%nat -> rows_of_length p rows -> absorbed diff rows <> [] -> (Z.of_nat (length rows) <= 2 ^ 53)%Z ->
  rows_within (pow2 1022) (absorbed diff rows) ->
  exists o loc, fitted64 (C := Empirical) (mkEmpP diff) rows o /\ location_ o = Ok loc /\ length loc = p /\
    forall i, (i < p)%nat -> finite64 (vget loc i) /\
      forall lo hi, (forall x, In x (real_rows (absorbed diff rows)) -> lo <= x i <= hi) -> lo <= real64 (vget loc i) <= hi.
Proof.
  intros Hp Hr Hx Hl Hw. destruct (emp_entries p diff rows Hp Hr Hx) as (o & E1 & _ & E3 & _).
  exists o. eexists. split; [exact E1|]. split; [exact E3|]. split; [apply tab_length|]. intros i Hi. rewrite vget_tab by exact Hi.
  assert (HB : 2 * pow2 1022 <= big).
  { rewrite pow2_bpow. change 2 with (bpow radix2 1). rewrite <- bpow_plus. right. reflexivity. }
  pose proof (absorbed_length_le diff rows) as La.
  destruct (mean_range_acc p (pow2 1022) (coords (absorbed diff rows)) i Hi) as [F K].
  - rewrite coords_length. lia.
  - apply within_coords; [now apply absorbed_rows|exact Hw].
  - exact HB.
  - intros E. apply Hx. unfold coords in E. now apply map_eq_nil in E.
  - split; [exact F|]. intros lo hi H. apply K. intros x Hin.
    unfold coords in Hin. apply in_map_iff in Hin. destruct Hin as (row & <- & Hin).
    apply (H (fun i => real64 (vget row i))). unfold real_rows. now apply (in_map (fun row i => real64 (vget row i))).
Qed.
(** the same for EwaCovariance and DiagonalCovariance during their burn-in *)
Theorem C75_burn_in_mean_stays_in_range p r nb diff rows :
  (1 <= p)%nat -> ewa_burn_n r = Ok nb -> rows_of_length p rows -> absorbed diff rows <> [] -> (length (absorbed diff rows) <= nb)%nat ->
  rows_within (pow2 1022) (absorbed diff rows) ->
  exists o o' loc, fitted64 (C := Ewa) (mkEwaP r diff) rows o /\ fitted64 (C := Diagonal) (mkEwaP r diff) rows o' /\
    location_ o = Ok loc /\ location_ o' = Ok loc /\ length loc = p /\
    forall i, (i < p)%nat -> finite64 (vget loc i) /\
      forall lo hi, (forall x, In x (real_rows (absorbed diff rows)) -> lo <= x i <= hi) -> lo <= real64 (vget loc i) <= hi.
Proof.
  intros Hp Hb Hr Hx Hl Hw. destruct (ewa_entries p r nb diff rows Hp Hb Hr Hx) as (o & E1 & _ & E3 & _).
  destruct (diag_entries p r nb diff rows Hp Hb Hr Hx) as (o' & D1 & _ & D3 & _). rewrite dm_diag in D3.
  exists o, o'. eexists. split; [exact E1|]. split; [exact D1|]. split; [exact E3|]. split; [exact D3|]. split; [apply tab_length|]. intros i Hi. rewrite vget_tab by exact Hi.
  rewrite ewa_burning by (rewrite coords_length; exact Hl).
  assert (HB : 2 * pow2 1022 <= big).
  { rewrite pow2_bpow. change 2 with (bpow radix2 1). rewrite <- bpow_plus. right. reflexivity. }
  assert (Nb : (nb <= 250)%nat).
  { revert Hb. unfold ewa_burn_n. destruct (py_div n1 r) as [q|]; [|discriminate]. cbn [bind]. destruct (nceil q) as [c|]; [|discriminate].
    cbn [bind]. intros [= <-]. apply Nat2Z.inj_le. rewrite Z2Nat.id by lia. lia. }
  destruct (mean_range_acc p (pow2 1022) (coords (absorbed diff rows)) i Hi) as [F K].
  - rewrite coords_length. apply Z.le_trans with 250%Z; [lia|apply Z.leb_le; reflexivity].
  - apply within_coords; [now apply absorbed_rows|exact Hw].
  - exact HB.
  - intros E. apply Hx. unfold coords in E. now apply map_eq_nil in E.
  - split; [exact F|]. intros lo hi H. apply K. intros x Hin.
    unfold coords in Hin. apply in_map_iff in Hin. destruct Hin as (row & <- & Hin).
    apply (H (fun i => real64 (vget row i))). unfold real_rows. now apply (in_map (fun row i => real64 (vget row i))).
Qed.
(** after the burn-in the exact range is lost: 21 rows equal to 3.0 with the default r = 0.05 *)
Definition b64_of (z : Z) : NumB := nofZ z.
Definition default_r64 : NumB := nlit 5 2.
Definition first_location {C : EstClass NumB} (P : c_P C) (rows : list (vec NumB)) : NumB :=
  match location_ (fst (partial_fit (new P) (In2 rows))) with Ok (m :: _) => m | _ => nnan end.
Theorem C75_ewa_mean_leaves_the_range :
  exists rows, Forall (fun row => row = [b64_of 3]) rows /\ rows <> [] /\
    finite64 (first_location (C := Ewa) (mkEwaP default_r64 false) rows) /\
    real64 (first_location (C := Ewa) (mkEwaP default_r64 false) rows) < 3 /\
    finite64 (first_location (C := Diagonal) (mkEwaP default_r64 false) rows) /\
    real64 (first_location (C := Diagonal) (mkEwaP default_r64 false) rows) < 3.
Proof.
  exists (repeat [b64_of 3] 21). split; [apply Forall_forall; intros row H; now apply repeat_spec in H|]. split; [discriminate|].
  unfold finite64, real64.
  assert (E1 : B2SF (first_location (C := Ewa) (mkEwaP default_r64 false) (repeat [b64_of 3] 21)) = SpecFloat.S754_finite false 6755399441055743 (-51)) by (vm_compute; reflexivity).
  assert (E2 : B2SF (first_location (C := Diagonal) (mkEwaP default_r64 false) (repeat [b64_of 3] 21)) = SpecFloat.S754_finite false 6755399441055743 (-51)) by (vm_compute; reflexivity).
  assert (K : forall x : NumB, B2SF x = SpecFloat.S754_finite false 6755399441055743 (-51) -> is_finite x = true /\ B2R x < 3).
  { intros x. destruct x as [s|s| |s m e H]; intros Hx; try discriminate Hx. cbn [B2SF] in Hx. injection Hx as -> -> ->. split; [reflexivity|].
    cbn [B2R cond_Zopp]. unfold F2R. cbn [Fnum Fexp bpow]. simpl Z.pow_pos. lra. }
  destruct (K _ E1) as [A1 B1]. destruct (K _ E2) as [A2 B2]. auto.
Qed.

(** ** C76: a variance is never negative *)
Definition variances_nonneg (p : nat) (cov : mat NumB) : Prop := forall i, (i < p)%nat -> finite64 (mget cov i i) /\ 0 <= entry64 cov i i.
Theorem C76_empirical_variance_never_negative p diff rows M :
  (1 <= p)%nat -> rows_of_length p rows -> absorbed diff rows <> [] -> (Z.of_nat (length rows) <= 2 ^ 47)%Z ->
  moderate M -> rows_within M (absorbed diff rows) ->
  exists o cov, fitted64 (C := Empirical) (mkEmpP diff) rows o /\ covariance_ o = Ok cov /\ variances_nonneg p cov.
Proof.
  intros Hp Hr Hx Hl HM Hw. destruct (emp_entries p diff rows Hp Hr Hx) as (o & E1 & _ & _ & E4).
  pose proof (moderate_lo _ HM) as ML. pose proof (moderate_hi _ HM) as MH. pose proof (absorbed_length_le diff rows) as La.
  pose proof (within_coords p M _ (absorbed_rows p diff rows Hr) Hw) as W.
  assert (Lz : (Z.of_nat (length (coords (absorbed diff rows))) <= 2 ^ 47)%Z) by (rewrite coords_length; lia).
  exists o. eexists. split; [exact E1|]. split; [exact E4|]. intros i Hi. unfold entry64. rewrite mget_tab by exact Hi.
  pose proof (emp_acc M ML MH p _ W Lz) as A. pose proof (cov_bound M ML p _ _ i i W Lz A Hi Hi) as B. destruct A as [_ Ac]. destruct (Ac i i Hi Hi) as [Fc Ec].
  destruct (sym_entry M ML MH _ _ _ Fc Fc B B _ Ec Ec) as (F & V & _). split; [exact F|].
  unfold real64. fold (val (ndiv (nadd (fc (fold_left f_emp (coords (absorbed diff rows)) f0) i i) (fc (fold_left f_emp (coords (absorbed diff rows)) f0) i i)) (nofZ 2))).
  rewrite V. pose proof (emp_var_nonneg M ML MH p _ i W Lz Hi) as NN. apply rnd_nonneg.
  match goal with |- 0 <= ?a / 2 => assert (0 <= a) by (apply rnd_nonneg; lra); lra end.
Qed.
Theorem C76_ewa_variance_never_negative p r diff rows M :
  (1 <= p)%nat -> rate64 r -> rows_of_length p rows -> absorbed diff rows <> [] -> moderate M -> rows_within M (absorbed diff rows) ->
  exists o cov, fitted64 (C := Ewa) (mkEwaP r diff) rows o /\ covariance_ o = Ok cov /\ variances_nonneg p cov.
Proof.
  intros Hp HR Hr Hx HM Hw. destruct (burn_ok r (rate_fin _ HR) (conj (rate_lo _ HR) (rate_hi _ HR))) as (nb & Eb & Nb & _).
  destruct (ewa_entries p r nb diff rows Hp Eb Hr Hx) as (o & E1 & _ & _ & E4).
  pose proof (moderate_lo _ HM) as ML. pose proof (moderate_hi _ HM) as MH.
  pose proof (within_coords p M _ (absorbed_rows p diff rows Hr) Hw) as W.
  exists o. eexists. split; [exact E1|]. split; [exact E4|]. intros i Hi. unfold entry64. rewrite mget_tab by exact Hi.
  pose proof (ewa_acc M ML MH r (rate_fin _ HR) (rate_lo _ HR) (rate_hi _ HR) nb ltac:(lia) ltac:(lia) p _ W) as A.
  destruct (ewa_ok_bounds M ML r (rate_lo _ HR) (rate_hi _ HR) nb ltac:(lia) ltac:(lia) p _ _ W A) as [_ B]. destruct A as [_ Ac]. destruct (Ac i i Hi Hi) as [Fc Ec].
  destruct (sym_entry M ML MH _ _ _ Fc Fc (B i i Hi Hi) (B i i Hi Hi) _ Ec Ec) as (F & V & _). split; [exact F|].
  unfold real64. fold (val (ndiv (nadd (fc (fold_left (f_ewa r nb) (coords (absorbed diff rows)) f0) i i) (fc (fold_left (f_ewa r nb) (coords (absorbed diff rows)) f0) i i)) (nofZ 2))).
  rewrite V. pose proof (ewa_var_nonneg M ML MH r (rate_fin _ HR) (rate_lo _ HR) (rate_hi _ HR) nb ltac:(lia) ltac:(lia) p _ i W Hi) as NN. apply rnd_nonneg.
  match goal with |- 0 <= ?a / 2 => assert (0 <= a) by (apply rnd_nonneg; lra); lra end.
Qed.
Lemma zero_entry (z w : NumB) : fin z -> val z = 0 -> fin w -> val w = 0 -> fin (ndiv (nadd z w) (nofZ 2)) /\ val (ndiv (nadd z w) (nofZ 2)) = 0.
Proof.
  intros Fz Vz Fw Vw. destruct fin_2 as [F2 V2]. pose proof big_pos.
  destruct (fin_add z w Fz Fw) as [F1 V1]; [rewrite Vz, Vw, Rplus_0_l, Rabs_R0; lra|]. rewrite Vz, Vw, Rplus_0_l, rnd_0 in V1.
  assert (Z0 : 0 / 2 = 0) by lra.
  destruct (fin_div _ (nofZ 2) F1 F2) as [F3 V3]; [rewrite V2; lra|rewrite V1, V2, Z0, Rabs_R0; lra|]. rewrite V1, V2, Z0, rnd_0 in V3. auto.
Qed.
Lemma diag_cov_entries p r diff rows M : (1 <= p)%nat -> rate64 r -> rows_of_length p rows -> absorbed diff rows <> [] -> moderate M -> rows_within M (absorbed diff rows) ->
  exists o cov nb, fitted64 (C := Diagonal) (mkEwaP r diff) rows o /\ covariance_ o = Ok cov /\ is_mat p p cov /\
    ewa_burn_n r = Ok nb /\ (5 <= nb <= 250)%nat /\ (nb <= burn_len (real64 r) <= nb + 1)%nat /\
    location_ o = Ok (tab p (fm_ (fold_left (f_ewa r nb) (coords (absorbed diff rows)) f0))) /\
    (forall i j, (i < p)%nat -> (j < p)%nat -> finite64 (mget cov i j) /\ (i <> j -> entry64 cov i j = 0)) /\
    (forall i, (i < p)%nat -> 0 <= entry64 cov i i /\
      Rabs (entry64 cov i i - innov_var (real64 r) nb (real_rows (absorbed diff rows)) i) <= errc M r + 12 * (u53 * (M * M))).
Proof.
  intros Hp HR Hr Hx HM Hw. destruct (burn_ok r (rate_fin _ HR) (conj (rate_lo _ HR) (rate_hi _ HR))) as (nb & Eb & Nb & Nb').
  destruct (diag_entries p r nb diff rows Hp Eb Hr Hx) as (o & E1 & _ & E3 & E4). rewrite dm_diag in E3.
  pose proof (moderate_lo _ HM) as ML. pose proof (moderate_hi _ HM) as MH.
  pose proof (within_coords p M _ (absorbed_rows p diff rows Hr) Hw) as W.
  pose proof (diag_acc M ML MH r (rate_fin _ HR) (rate_lo _ HR) (rate_hi _ HR) nb ltac:(lia) ltac:(lia) p _ W) as A.
  exists o. eexists. exists nb. split; [exact E1|]. split; [exact E4|]. split; [apply is_mat_tab2|]. split; [exact Eb|]. split; [exact Nb|]. split; [exact Nb'|]. split; [exact E3|].
  set (a := fold_left (f_diag r nb) (coords (absorbed diff rows)) d0) in *.
  assert (D : forall i, (i < p)%nat -> fin (ndiv (nadd (dv a i) (dv a i)) (nofZ 2)) /\ 0 <= val (ndiv (nadd (dv a i) (dv a i)) (nofZ 2)) /\
     Rabs (val (ndiv (nadd (dv a i) (dv a i)) (nofZ 2)) - innov_var (real64 r) nb (real_rows (absorbed diff rows)) i) <= errc M r + 12 * (u53 * (M * M))).
  { intros i Hi. destruct (diag_ok_bound M ML r (rate_lo _ HR) (rate_hi _ HR) nb ltac:(lia) ltac:(lia) p _ a i W A Hi) as [Ev Bv]. destruct (A i Hi) as (Fv & Nv & _).
    destruct (sym_entry M ML MH _ _ _ Fv Fv Bv Bv _ Ev Ev) as (F & V & E). split; [exact F|]. split.
    - rewrite V. apply rnd_nonneg. match goal with |- 0 <= ?a / 2 => assert (0 <= a) by (apply rnd_nonneg; lra); lra end.
    - rewrite reals_coords in E. exact E. }
  split.
  - intros i j Hi Hj. unfold entry64. rewrite mget_tab by auto. rewrite (Nat.eqb_sym j i). destruct (Nat.eqb_spec i j) as [->|Ne].
    + split; [apply (D j Hj)|congruence].
    + destruct fin_0 as [F0 V0]. destruct (zero_entry n0 n0 F0 V0 F0 V0) as [F V]. split; [exact F|]. intros _. exact V.
  - intros i Hi. unfold entry64. rewrite mget_tab by auto. rewrite Nat.eqb_refl. split; apply (D i Hi).
Qed.
Theorem C76_diagonal_variance_never_negative p r diff rows M :
  (1 <= p)%nat -> rate64 r -> rows_of_length p rows -> absorbed diff rows <> [] -> moderate M -> rows_within M (absorbed diff rows) ->
  exists o cov, fitted64 (C := Diagonal) (mkEwaP r diff) rows o /\ covariance_ o = Ok cov /\ variances_nonneg p cov.
Proof.
  intros Hp HR Hr Hx HM Hw. destruct (diag_cov_entries p r diff rows M Hp HR Hr Hx HM Hw) as (o & cov & nb & E1 & E2 & _ & _ & _ & _ & _ & D1 & D2).
  exists o, cov. split; [exact E1|]. split; [exact E2|]. intros i Hi. split; [apply (D1 i i Hi Hi)|apply (D2 i Hi)].
Qed.
(** ... but the matrix need not be positive semidefinite once rounded: rows (-2,-6), (-2,-6), (5,15), direction (3,-1). *)
Definition cov64 {C : EstClass NumB} (P : c_P C) (rows : list (vec NumB)) : mat NumB :=
  match covariance_ (fst (partial_fit (new P) (In2 rows))) with Ok c => c | Err _ => [] end.
Definition not_psd_rows : list (vec NumB) :=
  [[b64_of (-2); b64_of (-6)]; [b64_of (-2); b64_of (-6)]; [b64_of 5; b64_of 15]].
Lemma B2SF_real (x : NumB) m e : B2SF x = SpecFloat.S754_finite false m e -> is_finite x = true /\ B2R x = IZR (Zpos m) * bpow radix2 e.
Proof. destruct x as [s|s| |s m' e' H]; intros Hx; try discriminate Hx. cbn [B2SF] in Hx. injection Hx as -> -> ->. split; reflexivity. Qed.
Theorem C76_rounded_covariance_can_fail_psd :
  let c := cov64 (C := Empirical) (mkEmpP false) not_psd_rows in
  (exists o, fitted64 (C := Empirical) (mkEmpP false) not_psd_rows o /\ covariance_ o = Ok c) /\
  3 * 3 * entry64 c 0 0 - 3 * (entry64 c 0 1 + entry64 c 1 0) + entry64 c 1 1 < 0.
Proof.
  cbv zeta. set (c := cov64 (C := Empirical) (mkEmpP false) not_psd_rows).
  split.
  { destruct (emp_entries (N := NumB) 2 false not_psd_rows) as (o & E1 & _ & _ & E4); [lia|repeat constructor|discriminate|].
    exists o. split; [exact E1|]. unfold c, cov64. rewrite E1. cbn [fst]. rewrite E4. reflexivity. }
  assert (E00 : B2SF (mget c 0 0) = SpecFloat.S754_finite false 6129899492809841 (-49)) by (vm_compute; reflexivity).
  assert (E01 : B2SF (mget c 0 1) = SpecFloat.S754_finite false 4597424619607382 (-47)) by (vm_compute; reflexivity).
  assert (E10 : B2SF (mget c 1 0) = SpecFloat.S754_finite false 4597424619607382 (-47)) by (vm_compute; reflexivity).
  assert (E11 : B2SF (mget c 1 1) = SpecFloat.S754_finite false 6896136929411072 (-46)) by (vm_compute; reflexivity).
  unfold entry64, real64. rewrite (proj2 (B2SF_real _ _ _ E00)), (proj2 (B2SF_real _ _ _ E01)), (proj2 (B2SF_real _ _ _ E10)), (proj2 (B2SF_real _ _ _ E11)).
  cbn [bpow]. simpl Z.pow_pos. lra.
Qed.

(** ** C77: no overflow, no NaN for data up to 2^480 in magnitude *)
Lemma is_mat_Forall_tab2 (P : NumB -> Prop) p q f : (forall i j, (i < p)%nat -> (j < q)%nat -> P (f i j)) -> Forall (Forall P) (tab2 p q f).
Proof. intros H. unfold tab2. apply Forall_tab. intros i Hi. apply Forall_tab. intros j Hj. now apply H. Qed.
Lemma tab2_mget {N : Num} p q (a : mat N) : is_mat p q a -> a = tab2 p q (mget a).
Proof. intros H. rewrite (is_mat_tab p q a n0 H) at 1. reflexivity. Qed.
Theorem C77_empirical_stays_finite p diff rows M :
  (1 <= p)%nat -> rows_of_length p rows -> absorbed diff rows <> [] -> (Z.of_nat (length rows) <= 2 ^ 47)%Z ->
  moderate M -> rows_within M (absorbed diff rows) ->
  exists o loc cov, fitted64 (C := Empirical) (mkEmpP diff) rows o /\ finite_attributes p o loc cov.
Proof.
  intros Hp Hr Hx Hl HM Hw. destruct (emp_entries p diff rows Hp Hr Hx) as (o & E1 & _ & E3 & E4).
  pose proof (moderate_lo _ HM) as ML. pose proof (moderate_hi _ HM) as MH. pose proof (absorbed_length_le diff rows) as La.
  pose proof (within_coords p M _ (absorbed_rows p diff rows Hr) Hw) as W.
  assert (Lz : (Z.of_nat (length (coords (absorbed diff rows))) <= 2 ^ 47)%Z) by (rewrite coords_length; lia).
  pose proof (emp_acc M ML MH p _ W Lz) as A. pose proof (fun i j => cov_bound M ML p _ _ i j W Lz A) as B. destruct A as [Am Ac].
  exists o. eexists. eexists. split; [exact E1|]. split; [exact E3|]. split; [exact E4|]. split; [apply tab_length|]. split; [apply is_mat_tab2|]. split.
  - apply Forall_tab. intros i Hi. apply (Am i Hi).
  - apply is_mat_Forall_tab2. intros i j Hi Hj.
    refine (proj1 (sym_entry M ML MH _ _ 0 (proj1 (Ac i j Hi Hj)) (proj1 (Ac j i Hj Hi)) (B i j Hi Hj) (B j i Hj Hi) (5 * (M * M)) _ _)).
    + rewrite Rminus_0_r. now apply B.
    + rewrite Rminus_0_r. now apply B.
Qed.
Theorem C77_ewa_stays_finite p r diff rows M :
  (1 <= p)%nat -> rate64 r -> rows_of_length p rows -> absorbed diff rows <> [] -> moderate M -> rows_within M (absorbed diff rows) ->
  exists o loc cov, fitted64 (C := Ewa) (mkEwaP r diff) rows o /\ finite_attributes p o loc cov.
Proof.
  intros Hp HR Hr Hx HM Hw. destruct (burn_ok r (rate_fin _ HR) (conj (rate_lo _ HR) (rate_hi _ HR))) as (nb & Eb & Nb & _).
  destruct (ewa_entries p r nb diff rows Hp Eb Hr Hx) as (o & E1 & _ & E3 & E4).
  pose proof (moderate_lo _ HM) as ML. pose proof (moderate_hi _ HM) as MH.
  pose proof (within_coords p M _ (absorbed_rows p diff rows Hr) Hw) as W.
  pose proof (ewa_acc M ML MH r (rate_fin _ HR) (rate_lo _ HR) (rate_hi _ HR) nb ltac:(lia) ltac:(lia) p _ W) as A.
  destruct (ewa_ok_bounds M ML r (rate_lo _ HR) (rate_hi _ HR) nb ltac:(lia) ltac:(lia) p _ _ W A) as [_ B]. destruct A as [Am Ac].
  exists o. eexists. eexists. split; [exact E1|]. split; [exact E3|]. split; [exact E4|]. split; [apply tab_length|]. split; [apply is_mat_tab2|]. split.
  - apply Forall_tab. intros i Hi. apply (Am i Hi).
  - apply is_mat_Forall_tab2. intros i j Hi Hj.
    refine (proj1 (sym_entry M ML MH _ _ 0 (proj1 (Ac i j Hi Hj)) (proj1 (Ac j i Hj Hi)) (B i j Hi Hj) (B j i Hj Hi) (5 * (M * M)) _ _)).
    + rewrite Rminus_0_r. now apply B.
    + rewrite Rminus_0_r. now apply B.
Qed.
Theorem C77_diagonal_stays_finite p r diff rows M :
  (1 <= p)%nat -> rate64 r -> rows_of_length p rows -> absorbed diff rows <> [] -> moderate M -> rows_within M (absorbed diff rows) ->
  exists o loc cov, fitted64 (C := Diagonal) (mkEwaP r diff) rows o /\ finite_attributes p o loc cov.
Proof.
  intros Hp HR Hr Hx HM Hw. destruct (diag_cov_entries p r diff rows M Hp HR Hr Hx HM Hw) as (o & cov & nb & E1 & E2 & Sh & Eb & Nb & _ & E3 & D1 & D2).
  pose proof (moderate_lo _ HM) as ML. pose proof (moderate_hi _ HM) as MH.
  pose proof (within_coords p M _ (absorbed_rows p diff rows Hr) Hw) as W.
  destruct (ewa_acc M ML MH r (rate_fin _ HR) (rate_lo _ HR) (rate_hi _ HR) nb ltac:(lia) ltac:(lia) p _ W) as [Am _].
  exists o. eexists. exists cov. split; [exact E1|]. split; [exact E3|]. split; [exact E2|]. split; [apply tab_length|]. split; [exact Sh|]. split.
  - apply Forall_tab. intros i Hi. apply (Am i Hi).
  - rewrite (tab2_mget p p cov Sh). apply is_mat_Forall_tab2. intros i j Hi Hj. apply (D1 i j Hi Hj).
Qed.
Lemma B2SF_inf (x : NumB) : B2SF x = SpecFloat.S754_infinity false -> x = B754_infinity false.
Proof. destruct x; cbn; intro K; try discriminate K. now injection K as ->. Qed.
(** Beyond that range the overflow is silent: two finite rows, no exception, an infinite variance. *)
Definition huge_rows : list (vec NumB) := [[b64_of (2 ^ 600)]; [b64_of (- 2 ^ 600)]].
Theorem C77_overflow_is_silent :
  Forall (Forall finite64) huge_rows /\
  exists o, fitted64 (C := Empirical) (mkEmpP false) huge_rows o /\ covariance_ o = Ok [[B754_infinity false : NumB]].
Proof.
  split. { repeat constructor; vm_compute; reflexivity. }
  destruct (emp_entries (N := NumB) 1 false huge_rows) as (o & E1 & _ & _ & E4); [lia|repeat constructor|discriminate|].
  exists o. split; [exact E1|]. rewrite E4. vm_compute. reflexivity.
Qed.

Lemma Ok_inj {A} (a b : A) : Ok a = Ok b -> a = b.
Proof. congruence. Qed.
(** ** C78: accuracy *)
(** EmpiricalCovariance: the error grows at most linearly with the number of rows. *)
Theorem C78_empirical_accuracy p diff rows M :
  (1 <= p)%nat -> rows_of_length p rows -> absorbed diff rows <> [] -> (Z.of_nat (length rows) <= 2 ^ 47)%Z ->
  moderate M -> rows_within M (absorbed diff rows) ->
  let n := INR (length (absorbed diff rows)) in
  exists o loc cov, fitted64 (C := Empirical) (mkEmpP diff) rows o /\ finite_attributes p o loc cov /\
    (forall i, (i < p)%nat -> Rabs (real64 (vget loc i) - mean_of (real_rows (absorbed diff rows)) i) <= n * pow2 (-51) * M) /\
    (forall i j, (i < p)%nat -> (j < p)%nat -> Rabs (entry64 cov i j - pcov_of (real_rows (absorbed diff rows)) i j) <= n * pow2 (-46) * (M * M)).
Proof.
  intros Hp Hr Hx Hl HM Hw n.
  destruct (C77_empirical_stays_finite p diff rows M Hp Hr Hx Hl HM Hw) as (o & loc & cov & E1 & FA). exists o, loc, cov. split; [exact E1|]. split; [exact FA|].
  destruct FA as (E3 & E4 & _). destruct (emp_entries p diff rows Hp Hr Hx) as (o2 & E1' & _ & E3' & E4'). unfold fitted64 in E1. rewrite E1 in E1'. injection E1' as <-.
  rewrite E3 in E3'. rewrite E4 in E4'. apply Ok_inj in E3'. apply Ok_inj in E4'. subst loc cov.
  pose proof (moderate_lo _ HM) as ML. pose proof (moderate_hi _ HM) as MH. pose proof (absorbed_length_le diff rows) as La.
  pose proof (within_coords p M _ (absorbed_rows p diff rows Hr) Hw) as W.
  assert (Lz : (Z.of_nat (length (coords (absorbed diff rows))) <= 2 ^ 47)%Z) by (rewrite coords_length; lia).
  pose proof (emp_acc M ML MH p _ W Lz) as A. pose proof (fun i j => cov_bound M ML p _ _ i j W Lz A) as B. destruct A as [Am Ac].
  assert (N1 : 1 <= n) by (unfold n; destruct (absorbed diff rows); [congruence|]; cbn [length]; rewrite S_INR; pose proof (pos_INR (length l)); lra).
  pose proof (Mpos M ML) as MP. assert (SP : 0 < M * M) by nra.
  assert (P51 : pow2 (-51) = 4 * u53) by (rewrite pow2_bpow; unfold u53; simpl; lra).
  assert (P46 : pow2 (-46) = 128 * u53) by (rewrite pow2_bpow; unfold u53; simpl; lra).
  assert (US : 0 < u53 * (M * M)) by (pose proof u53_pos; nra).
  split.
  - intros i Hi. rewrite vget_tab by exact Hi. destruct (Am i Hi) as (_ & _ & E). rewrite reals_coords, coords_length in E. fold n in E. rewrite P51. unfold real64, val in *. lra.
  - intros i j Hi Hj. unfold entry64. rewrite mget_tab by auto.
    destruct (Ac i j Hi Hj) as [F1 Q1]. destruct (Ac j i Hj Hi) as [F2 Q2]. rewrite reals_coords, coords_length in Q1, Q2. fold n in Q1, Q2.
    rewrite (sym_pcov (real_rows (absorbed diff rows)) p j i Hj Hi) in Q2. unfold rT in Q2.
    destruct (sym_entry M ML MH _ _ _ F1 F2 (B i j Hi Hj) (B j i Hj Hi) _ Q1 Q2) as (_ & _ & E). rewrite P46. unfold real64, val in *.
    eapply Rle_trans; [exact E|]. nra.
Qed.
(** EwaCovariance: bounded uniformly in the number of rows: the estimator does not drift. *)
Theorem C78_ewa_accuracy_uniform_in_time p r diff rows M :
  (1 <= p)%nat -> rate64 r -> rows_of_length p rows -> absorbed diff rows <> [] -> moderate M -> rows_within M (absorbed diff rows) ->
  exists o loc cov nb, fitted64 (C := Ewa) (mkEwaP r diff) rows o /\ finite_attributes p o loc cov /\
    (nb <= burn_len (real64 r) <= nb + 1)%nat /\
    (forall i, (i < p)%nat -> Rabs (real64 (vget loc i) - ewa_mean (real64 r) nb (real_rows (absorbed diff rows)) i) <= pow2 (-43) * M / real64 r) /\
    (forall i j, (i < p)%nat -> (j < p)%nat ->
       Rabs (entry64 cov i j - ewa_cov (real64 r) nb (real_rows (absorbed diff rows)) i j) <= pow2 (-37) * (M * M) / real64 r).
Proof.
  intros Hp HR Hr Hx HM Hw.
  destruct (C77_ewa_stays_finite p r diff rows M Hp HR Hr Hx HM Hw) as (o & loc & cov & E1 & FA). exists o, loc, cov.
  destruct (burn_ok r (rate_fin _ HR) (conj (rate_lo _ HR) (rate_hi _ HR))) as (nb & Eb & Nb & Nb'). exists nb.
  split; [exact E1|]. split; [exact FA|]. split; [exact Nb'|].
  destruct FA as (E3 & E4 & _). destruct (ewa_entries p r nb diff rows Hp Eb Hr Hx) as (o2 & E1' & _ & E3' & E4'). unfold fitted64 in E1. rewrite E1 in E1'. injection E1' as <-.
  rewrite E3 in E3'. rewrite E4 in E4'. apply Ok_inj in E3'. apply Ok_inj in E4'. subst loc cov.
  pose proof (moderate_lo _ HM) as ML. pose proof (moderate_hi _ HM) as MH.
  pose proof (within_coords p M _ (absorbed_rows p diff rows Hr) Hw) as W.
  pose proof (ewa_acc M ML MH r (rate_fin _ HR) (rate_lo _ HR) (rate_hi _ HR) nb ltac:(lia) ltac:(lia) p _ W) as A.
  destruct (ewa_ok_bounds M ML r (rate_lo _ HR) (rate_hi _ HR) nb ltac:(lia) ltac:(lia) p _ _ W A) as [_ B]. destruct A as [Am Ac].
  pose proof (Mpos M ML) as MP. assert (SP : 0 < M * M) by nra.
  assert (P43 : pow2 (-43) = 1024 * u53) by (rewrite pow2_bpow; unfold u53; simpl; lra).
  assert (P37 : pow2 (-37) = 65536 * u53) by (rewrite pow2_bpow; unfold u53; simpl; lra).
  assert (US : 0 < u53 * (M * M)) by (pose proof u53_pos; nra).
  pose proof (rinv_hi r (rate_lo _ HR) (rate_hi _ HR)) as RI.
  split.
  - intros i Hi. rewrite vget_tab by exact Hi. destruct (Am i Hi) as (_ & E). rewrite reals_coords in E. unfold errm, real64, val, Rdiv in *. rewrite P43. lra.
  - intros i j Hi Hj. unfold entry64. rewrite mget_tab by auto.
    destruct (Ac i j Hi Hj) as [F1 Q1]. destruct (Ac j i Hj Hi) as [F2 Q2]. rewrite reals_coords in Q1, Q2.
    rewrite (sym_ewa_cov (val r) nb (real_rows (absorbed diff rows)) p j i Hj Hi) in Q2. unfold rT in Q2.
    destruct (sym_entry M ML MH _ _ _ F1 F2 (B i j Hi Hj) (B j i Hj Hi) _ Q1 Q2) as (_ & _ & E). rewrite P37. unfold errc, real64, val, Rdiv in *.
    eapply Rle_trans; [exact E|]. set (t := / B2R r) in *. set (w := u53 * (M * M)) in *.
    replace (65536 * u53 * (M * M) * t) with (65536 * (w * t)) by (unfold w; ring). assert (w <= w * t) by nra. lra.
Qed.
Theorem C78_diagonal_accuracy_uniform_in_time p r diff rows M :
  (1 <= p)%nat -> rate64 r -> rows_of_length p rows -> absorbed diff rows <> [] -> moderate M -> rows_within M (absorbed diff rows) ->
  exists o loc cov nb, fitted64 (C := Diagonal) (mkEwaP r diff) rows o /\ finite_attributes p o loc cov /\
    (nb <= burn_len (real64 r) <= nb + 1)%nat /\
    (forall i, (i < p)%nat -> Rabs (real64 (vget loc i) - ewa_mean (real64 r) nb (real_rows (absorbed diff rows)) i) <= pow2 (-43) * M / real64 r) /\
    (forall i j, (i < p)%nat -> (j < p)%nat -> i <> j -> entry64 cov i j = 0) /\
    (forall i, (i < p)%nat -> Rabs (entry64 cov i i - innov_var (real64 r) nb (real_rows (absorbed diff rows)) i) <= pow2 (-37) * (M * M) / real64 r).
Proof.
  intros Hp HR Hr Hx HM Hw.
  destruct (C77_diagonal_stays_finite p r diff rows M Hp HR Hr Hx HM Hw) as (o & loc & cov & E1 & FA). exists o, loc, cov.
  destruct (diag_cov_entries p r diff rows M Hp HR Hr Hx HM Hw) as (o2 & cov2 & nb & E1' & E2 & _ & _ & Nb & Nb' & E3' & D1 & D2).
  exists nb. split; [exact E1|]. split; [exact FA|]. split; [exact Nb'|].
  destruct FA as (E3 & E4 & _). unfold fitted64 in E1, E1'. rewrite E1 in E1'. injection E1' as <-. rewrite E3 in E3'. rewrite E4 in E2. apply Ok_inj in E3'. apply Ok_inj in E2. subst loc cov2.
  pose proof (moderate_lo _ HM) as ML. pose proof (moderate_hi _ HM) as MH.
  pose proof (within_coords p M _ (absorbed_rows p diff rows Hr) Hw) as W.
  destruct (ewa_acc M ML MH r (rate_fin _ HR) (rate_lo _ HR) (rate_hi _ HR) nb ltac:(lia) ltac:(lia) p _ W) as [Am _].
  pose proof (Mpos M ML) as MP. assert (SP : 0 < M * M) by nra.
  assert (P43 : pow2 (-43) = 1024 * u53) by (rewrite pow2_bpow; unfold u53; simpl; lra).
  assert (P37 : pow2 (-37) = 65536 * u53) by (rewrite pow2_bpow; unfold u53; simpl; lra).
  assert (US : 0 < u53 * (M * M)) by (pose proof u53_pos; nra).
  pose proof (rinv_hi r (rate_lo _ HR) (rate_hi _ HR)) as RI.
  split; [|split].
  - intros i Hi. rewrite vget_tab by exact Hi. destruct (Am i Hi) as (_ & E). rewrite reals_coords in E. unfold errm, real64, val, Rdiv in *. rewrite P43. lra.
  - intros i j Hi Hj Ne. now apply (D1 i j Hi Hj).
  - intros i Hi. destruct (D2 i Hi) as [_ E]. rewrite P37. eapply Rle_trans; [exact E|]. unfold errc, real64, val, Rdiv in *.
    set (t := / B2R r) in *. set (w := u53 * (M * M)) in *.
    replace (65536 * u53 * (M * M) * t) with (65536 * (w * t)) by (unfold w; ring). assert (w <= w * t) by nra. lra.
Qed.

(** ** The hypotheses are met *)
Definition sample_rows : list (vec NumB) := [[b64_of 3; b64_of 1]; [b64_of 1; b64_of 4]; [b64_of (-2); b64_of 0]].
Lemma B2SF_real_any (x : NumB) s m e : B2SF x = SpecFloat.S754_finite s m e -> is_finite x = true /\ B2R x = F2R (Float radix2 (cond_Zopp s (Zpos m)) e).
Proof. destruct x; cbn; intro K; try discriminate K. injection K as -> -> ->. split; reflexivity. Qed.
Lemma small_int_real z (x : NumB) : (x = b64_of z) -> (-4 <= z <= 4)%Z -> is_finite x = true /\ B2R x = IZR z.
Proof.
  intros ->. intros H.
  assert (K : forall s m e v, B2SF (b64_of z) = SpecFloat.S754_finite s m e -> F2R (Float radix2 (cond_Zopp s (Zpos m)) e) = v -> IZR z = v -> is_finite (b64_of z) = true /\ B2R (b64_of z) = IZR z)
    by (intros s m e v A B C; destruct (B2SF_real_any _ _ _ _ A) as [F E]; split; [exact F|]; rewrite E, B; auto).
  assert (D : (z = -4 \/ z = -3 \/ z = -2 \/ z = -1 \/ z = 0 \/ z = 1 \/ z = 2 \/ z = 3 \/ z = 4)%Z) by lia.
  destruct D as [->|[->|[->|[->|[->|[->|[->|[->| ->]]]]]]]]; try (eapply K; [vm_compute; reflexivity|reflexivity|unfold F2R; simpl; lra]).
  split; reflexivity.
Qed.
Example float_hypotheses_met :
  rows_of_length 2 sample_rows /\ absorbed true sample_rows <> [] /\ (Z.of_nat (length sample_rows) <= 2 ^ 47)%Z /\
  moderate 4 /\ rows_within 4 (absorbed false sample_rows) /\ rows_within (pow2 1022) (absorbed false sample_rows) /\
  rate64 default_r64 /\ ewa_burn_n default_r64 = Ok 20%nat.
Proof.
  assert (B4 : forall z, (-4 <= z <= 4)%Z -> finite64 (b64_of z) /\ Rabs (real64 (b64_of z)) <= 4).
  { intros z Hz. destruct (small_int_real z _ eq_refl Hz) as [F E]. split; [exact F|]. unfold real64. rewrite E.
    apply Rabs_le. destruct Hz as [H1 H2]. apply IZR_le in H1. apply IZR_le in H2. lra. }
  assert (W4 : rows_within 4 (absorbed false sample_rows)).
  { unfold rows_within, sample_rows. cbn [absorbed]. repeat (apply Forall_cons || apply Forall_nil); apply B4; lia. }
  assert (P : 4 <= pow2 480).
  { rewrite pow2_bpow. change 4 with (bpow radix2 2). apply bpow_le. lia. }
  split; [repeat constructor|]. split; [discriminate|]. split; [apply Z.leb_le; reflexivity|]. split; [|split; [exact W4|split; [|split]]].
  - split; [|exact P]. rewrite pow2_bpow. change 4 with (bpow radix2 2). apply bpow_le. lia.
  - eapply Forall_impl; [|exact W4]. intros row. apply Forall_impl. intros x [F E]. split; [exact F|].
    eapply Rle_trans; [exact E|]. rewrite pow2_bpow. change 4 with (bpow radix2 2). apply bpow_le. lia.
  - assert (E : B2SF default_r64 = SpecFloat.S754_finite false 7205759403792794 (-57)) by (vm_compute; reflexivity).
    destruct (B2SF_real_any _ _ _ _ E) as [F V]. split; [exact F|]. unfold real64. rewrite V, pow2_bpow. unfold F2R. simpl. lra.
  - vm_compute. reflexivity.
Qed.

(** * C31, C32, C33, C39, C40: Diagonal, PartialMoments, DCC, Factor; their share of C18, C19, C23 *)
From Coq Require Import Reals ZArith String List Lia Lra Arith Bool.
From Verif Require Import Num Numpy PyVal LinalgModel StateModel BaseModel Estimators
  Spec ListLemmas BaseProofs RMat Fin RealSpec RunFin EwaReal RunAvg EmpFacts Props_Emp ShrinkReal MomentReal FactorReal.
Import ListNotations.
Local Open Scope R_scope.

(** ** C32 *)
(** average (then EWMA) of the squared innovations of coordinate [i] *)
Definition innov_var (r : R) (nb : nat) (xs : list obs) (i : nat) : R :=
  rw_avg r nb (fun pre x => dev r nb pre x i * dev r nb pre x i) xs.
Theorem C32_diagonal_closed_form p r diff rows xs : 0 < r <= 1 -> observes p diff rows xs -> xs <> [] ->
  exists o e S, fitted_on (C := Diagonal) (EWA r diff) rows o /\
    fitted_on (C := Ewa) (EWA r diff) rows e /\ covariance_ e = Ok (fm p p S) /\
    location_ o = location_ e /\
    covariance_ o = Ok (fm p p (fun i j => if Nat.eqb i j then innov_var r (burn_len r) xs i else 0)) /\
    forall i, (i < p)%nat -> S i i <= innov_var r (burn_len r) xs i.
Proof.
  intros Hr Ho Hx. assert (r <> 0) by lra.
  destruct (Diagonal_run p r diff rows xs) as (o & E1 & _ & E3 & E4 & _); auto.
  destruct (Ewa_run p r diff rows xs) as (e & F1 & _ & F3 & F4 & _); auto.
  exists o, e. eexists. split; [exact E1|]. split; [exact F1|]. split; [exact F4|]. split; [now rewrite E3, F3|].
  split; [exact E4|]. intros i _. apply diag_ge_ewa. lra.
Qed.

(** ** C31: weight of the first innovation, which is taken about zero *)
Definition weight0 (r : R) (nb n : nat) : R := (1 - r) ^ (n - nb) / INR (Nat.min n nb).
Lemma weight0_1 r nb : (1 <= nb)%nat -> weight0 r nb 1 = 1.
Proof. intros. unfold weight0. replace (1 - nb)%nat with 0%nat by lia. replace (Nat.min 1 nb) with 1%nat by lia. simpl. field. Qed.
Lemma weight0_S r nb n : (1 <= nb)%nat -> (1 <= n)%nat ->
  weight0 r nb (S n) = if Nat.ltb n nb then weight0 r nb n * (1 - / INR (S n)) else (1 - r) * weight0 r nb n.
Proof.
  intros Hb Hn. unfold weight0. destruct (Nat.ltb_spec n nb) as [H|H].
  - replace (S n - nb)%nat with 0%nat by lia. replace (n - nb)%nat with 0%nat by lia.
    replace (Nat.min (S n) nb) with (S n) by lia. replace (Nat.min n nb) with n by lia. simpl pow.
    rewrite S_INR. assert (INR n <> 0) by (apply not_0_INR; lia). assert (INR n + 1 <> 0) by (rewrite <- S_INR; auto).
    field. auto.
  - replace (S n - nb)%nat with (S (n - nb)) by lia. replace (Nat.min (S n) nb) with nb by lia.
    replace (Nat.min n nb) with nb by lia. simpl pow. unfold Rdiv. ring.
Qed.
Lemma rw_avg_shift r nb (f : obs -> obs) (g : list obs -> obs -> R) x xs : (1 <= nb)%nat ->
  (forall pre y, pre <> [] -> g (map f pre) (f y) = g pre y) ->
  rw_avg r nb g (map f (x :: xs)) = rw_avg r nb g (x :: xs) + weight0 r nb (length (x :: xs)) * (g [] (f x) - g [] x).
Proof.
  intros Hb Hg. induction xs as [|y ys IH] using rev_ind.
  - cbn [map length]. rewrite weight0_1 by auto.
    change [f x] with ([] ++ [f x])%list. change [x] with ([] ++ [x])%list. rewrite !rw_avg_snoc, !rw_avg_nil. cbn [length].
    destruct (Nat.ltb_spec 0 nb); [|lia]. simpl. field.
  - change (x :: ys ++ [y])%list with ((x :: ys) ++ [y])%list. rewrite map_app. cbn [map]. 
    change (f x :: map f ys) with (map f (x :: ys)). rewrite !rw_avg_snoc, IH, app_length. cbn [length]. rewrite Nat.add_1_r.
    rewrite (weight0_S r nb (S (length ys))) by lia. rewrite Hg by discriminate. rewrite map_length. cbn [length].
    destruct (Nat.ltb (S (length ys)) nb); unfold Rdiv; ring.
Qed.
Definition shift (b : obs) (x : obs) : obs := fun i => x i + b i.
Lemma ewa_mean_shift r nb b pre i : (1 <= nb)%nat -> pre <> [] -> ewa_mean r nb (map (shift b) pre) i = ewa_mean r nb pre i + b i.
Proof.
  intros Hb Hp. destruct pre as [|x pre]; [congruence|]. clear Hp. induction pre as [|y ys IH] using rev_ind.
  - change [x] with ([] ++ [x])%list. rewrite map_app. cbn [map]. rewrite !ewa_step_eq, !ewa_mean_nil. cbn [length].
    destruct (Nat.ltb_spec 0 nb); [|lia]. unfold shift. simpl. field.
  - change (x :: ys ++ [y])%list with ((x :: ys) ++ [y])%list. rewrite map_app. cbn [map]. rewrite !ewa_step_eq.
    change (shift b x :: map (shift b) ys) with (map (shift b) (x :: ys)). rewrite IH, map_length. unfold shift.
    destruct (Nat.ltb (length (x :: ys)) nb); unfold Rdiv; ring.
Qed.
(** The entries are not variances: translating the stream by [b] changes entry [i] by exactly the weight of
    the first observation times (x0_i + b_i)^2 - x0_i^2 (the EWA covariance does not change: C20). *)
Theorem C31_diagonal_translation p r b x xs : 0 < r <= 1 ->
  exists o o' F F', fitted_on (C := Diagonal) (EWA r false) (map (fv p) (x :: xs)) o /\
    fitted_on (C := Diagonal) (EWA r false) (map (fv p) (map (shift b) (x :: xs))) o' /\
    covariance_ o = Ok (fm p p F) /\ covariance_ o' = Ok (fm p p F') /\
    (forall i j, i <> j -> F i j = 0) /\
    (forall i, F' i i = F i i + weight0 r (burn_len r) (length (x :: xs)) * ((x i + b i) ^ 2 - x i ^ 2)).
Proof.
  intros Hr. assert (r <> 0) by lra. pose proof (burn_len_bounds r) as Hb.
  destruct (Diagonal_run p r false (map (fv p) (x :: xs)) (x :: xs)) as (o & E1 & _ & E3 & E4 & _); auto using observes_plain; try discriminate.
  destruct (Diagonal_run p r false (map (fv p) (map (shift b) (x :: xs))) (map (shift b) (x :: xs))) as (o' & F1 & _ & F3 & F4 & _); auto using observes_plain; try discriminate.
  exists o, o'. do 2 eexists. split; [exact E1|]. split; [exact F1|]. split; [exact E4|]. split; [exact F4|]. split.
  - intros i j Hij. unfold rdiag. destruct (Nat.eqb_spec i j); congruence.
  - intros i. unfold rdiag. rewrite Nat.eqb_refl. unfold diag_var. rewrite rw_avg_shift.
    + f_equal. f_equal. unfold dev, shift. rewrite ewa_mean_nil. ring.
    + lia.
    + intros pre y Hpre. unfold dev. rewrite ewa_mean_shift by (auto; lia). unfold shift.
      replace (y i + b i - (ewa_mean r (burn_len r) pre i + b i)) with (y i - ewa_mean r (burn_len r) pre i) by ring. reflexivity.
Qed.
(** A constant stream: EwaCovariance reports 0, DiagonalCovariance reports weight0 * c^2 (c^2/n in the burn-in). *)
Lemma rw_zero r nb g xs : (forall pre x, g pre x = 0) -> rw_avg r nb g xs = 0.
Proof.
  intros H. induction xs as [|x xs IH] using rev_ind; [now rewrite rw_avg_nil|]. rewrite rw_avg_snoc, IH, H.
  destruct (Nat.ltb _ _); unfold Rdiv; ring.
Qed.
Theorem C31_diagonal_constant_stream p r (c : obs) n : 0 < r <= 1 -> (1 <= n)%nat ->
  exists o e, fitted_on (C := Diagonal) (EWA r false) (repeat (fv p c) n) o /\
    fitted_on (C := Ewa) (EWA r false) (repeat (fv p c) n) e /\
    covariance_ e = Ok (fm p p (fun _ _ => 0)) /\
    covariance_ o = Ok (fm p p (fun i j => if Nat.eqb i j then weight0 r (burn_len r) n * c i ^ 2 else 0)) /\
    ((n <= burn_len r)%nat -> weight0 r (burn_len r) n = / INR n).
Proof.
  intros Hr Hn. assert (r <> 0) by lra. pose proof (burn_len_bounds r) as Hb.
  set (z := fun _ : nat => 0). set (nb := burn_len r) in *.
  assert (Er : repeat (fv p c) n = map (fv p) (map (shift c) (repeat z n))).
  { clear. induction n; simpl; auto. rewrite IHn. f_equal. apply fv_ext. intros. unfold shift, z. ring. }
  assert (Hz : map (shift c) (repeat z n) <> []) by (destruct n; [lia|discriminate]).
  assert (Z : forall x, In x (repeat z n) -> forall i, x i = 0) by (intros x Hx i; apply repeat_spec in Hx; subst; reflexivity).
  rewrite Er.
  destruct (Diagonal_run p r false _ _ H (observes_plain p (map (shift c) (repeat z n)))) as (o & E1 & _ & E3 & E4 & _); auto.
  destruct (Ewa_run p r false _ _ H (observes_plain p (map (shift c) (repeat z n)))) as (e & F1 & _ & F3 & F4 & _); auto.
  exists o, e. split; [exact E1|]. split; [exact F1|].
  (* mean of a nonempty constant stream is the constant *)
  assert (M : forall m i, (1 <= m)%nat -> ewa_mean r nb (map (shift c) (repeat z m)) i = c i).
  { intros m i Hm. rewrite ewa_mean_shift by (first [lia | destruct m; [lia|discriminate]]).
    replace (ewa_mean r nb (repeat z m) i) with 0; [ring|].
    symmetry. clear -Hr. induction m; [apply ewa_mean_nil|].
    replace (repeat z (S m)) with (repeat z m ++ [z])%list by (symmetry; apply repeat_cons).
    rewrite ewa_step_eq, IHm. unfold z. destruct (Nat.ltb _ _); unfold Rdiv; ring. }
  assert (Rp : forall m, map (shift c) (repeat z (S m)) = (map (shift c) (repeat z m) ++ [shift c z])%list).
  { intros m. change [shift c z] with (map (shift c) [z]). rewrite <- map_app. f_equal. apply repeat_cons. }
  split; [|split].
  - rewrite F4. f_equal. apply fm_ext. intros i j _ _. fold nb.
    assert (K : forall m, (1 <= m)%nat -> ewa_cov r nb (map (shift c) (repeat z m)) i j = 0).
    { induction m; intros Hm; [lia|]. rewrite Rp, ewa_cov_step. cbv zeta. rewrite map_length, repeat_length.
      destruct m as [|m].
      - cbn [repeat map length]. destruct (Nat.ltb_spec 0 nb); [|lia]. rewrite !ewa_mean_nil.
        unfold ewa_cov, burn, after. rewrite firstn_nil, skipn_nil, ewc_nil, pcov_nil. unfold shift, z. simpl. field.
      - rewrite IHm, !M by lia. unfold shift, z. destruct (Nat.ltb _ _); unfold Rdiv; ring. }
    apply K. exact Hn.
  - rewrite E4. f_equal. apply fm_ext. intros i j _ _. unfold rdiag. destruct (Nat.eqb i j); auto.
    destruct n as [|n]; [lia|]. cbn [repeat]. unfold diag_var. fold nb. rewrite rw_avg_shift.
    + change (z :: repeat z n) with (repeat z (S n)).
      replace (rw_avg r nb (fun pre x => dev r nb pre x i * dev r nb pre x i) (repeat z (S n))) with 0.
      * rewrite repeat_length. unfold dev, shift. rewrite ewa_mean_nil. unfold z. ring.
      * symmetry. clear -Hr.
        assert (K : forall m, rw_avg r nb (fun pre x => dev r nb pre x i * dev r nb pre x i) (repeat z m) = 0 /\ ewa_mean r nb (repeat z m) i = 0).
        { induction m as [|m [I1 I2]]; [split; [apply rw_avg_nil|apply ewa_mean_nil]|].
          replace (repeat z (S m)) with (repeat z m ++ [z])%list by (symmetry; apply repeat_cons).
          rewrite rw_avg_snoc, ewa_step_eq, I1, I2. unfold dev. rewrite I2. unfold z.
          destruct (Nat.ltb _ _); unfold Rdiv; split; ring. }
        apply K.
    + lia.
    + intros pre y Hpre. unfold dev. rewrite ewa_mean_shift by (auto; lia). unfold shift.
      replace (y i + c i - (ewa_mean r nb pre i + c i)) with (y i - ewa_mean r nb pre i) by ring. reflexivity.
  - intros Hl. unfold weight0. replace (n - nb)%nat with 0%nat by lia. replace (Nat.min n nb) with n by lia. simpl. unfold Rdiv. ring.
Qed.
Theorem C18_diagonal_psd p r diff rows xs : 0 < r <= 1 -> observes p diff rows xs -> xs <> [] ->
  exists o, fitted_on (C := Diagonal) (EWA r diff) rows o /\ psd_cov p o.
Proof.
  intros Hr Ho Hx. destruct (Diagonal_run p r diff rows xs) as (o & E1 & _ & _ & E4 & _); auto; [lra|].
  exists o. split; [exact E1|]. eexists. split; [exact E4|]. apply psd_diag. intros i _. apply rw_avg_nonneg; [lra|].
  intros. apply Rle_0_sqr.
Qed.
Theorem C19_diagonal_mean_in_range p r diff rows xs i lo hi : 0 < r <= 1 ->
  observes p diff rows xs -> xs <> [] -> (i < p)%nat -> (forall x, In x xs -> lo <= x i <= hi) ->
  exists o m, fitted_on (C := Diagonal) (EWA r diff) rows o /\ location_ o = Ok (fv p m) /\ lo <= m i <= hi.
Proof.
  intros Hr Ho Hx Hi H. destruct (Diagonal_run p r diff rows xs) as (o & E1 & _ & E3 & _); auto; [lra|].
  eexists o, _. split; [exact E1|]. split; [exact E3|].
  pose proof (burn_len_bounds r). apply ewa_mean_range; auto; [lra|lia].
Qed.
Theorem C23_diagonal_finite p r diff rows xs : 0 < r <= 1 -> observes p diff rows xs -> xs <> [] ->
  exists o, fitted_on (C := Diagonal) (EWA r diff) rows o /\ finite_fitted p o.
Proof.
  intros Hr Ho Hx. destruct (Diagonal_run p r diff rows xs) as (o & E1 & _ & E3 & E4 & _); auto; [lra|].
  exists o. split; [exact E1|]. eapply finite_fitted_intro; eauto. intros i Hi. unfold rdiag. rewrite Nat.eqb_refl.
  apply rw_avg_nonneg; [lra|]. intros. apply Rle_0_sqr.
Qed.

(** ** C33 *)
(** the plain recency-weighted average of the innovations' outer products *)
Definition innov_cov (r : R) (nb : nat) (xs : list obs) (i j : nat) : R :=
  rw_avg r nb (fun pre x => dev r nb pre x i * dev r nb pre x j) xs.
(** partial moment of sign pair (s,t): max(s a,0) s * max(t b,0) t *)
Definition partial_moment (s t : Z) (a b : R) : R :=
  (Rmax (a * IZR s) 0 * IZR s) * (Rmax (b * IZR t) 0 * IZR t).
Theorem C33_quadrants_add_up a b :
  partial_moment 1 1 a b + partial_moment (-1) 1 a b + partial_moment 1 (-1) a b + partial_moment (-1) (-1) a b = a * b.
Proof. apply legs_sum. Qed.
(** [covariance_] is the positive-definite projection of the plain average: no quadrant information is left. *)
Theorem C33_partial_moments_is_plain L fuel p r diff rows xs : 0 < r <= 1 ->
  observes p diff rows xs -> xs <> [] ->
  exists o, fitted_on (C := PartialMoments L fuel) (EWA r diff) rows o /\
    location_ o = Ok (fv p (ewa_mean r (burn_len r) xs)) /\
    covariance_ o = (c <- nearest_pos_def L fuel (fm p p (innov_cov r (burn_len r) xs)) ;; to_symmetric c) /\
    psd p (innov_cov r (burn_len r) xs).
Proof.
  intros Hr Ho Hx. destruct (PartialMoments_run L fuel p r diff rows xs) as (o & E1 & _ & E3 & E4 & _); auto; [lra|].
  exists o. split; [exact E1|]. split; [exact E3|]. split; [exact E4|]. apply psd_dev_cov. lra.
Qed.
(** ... and the plain average is the EWA covariance, but for the burn-in, whose difference decays geometrically. *)
Theorem C33_partial_moments_vs_ewa r xs i j : let nb := burn_len r in (nb <= length xs)%nat ->
  innov_cov r nb xs i j - ewa_cov r nb xs i j =
  (1 - r) ^ (length xs - nb) * (innov_cov r nb (burn nb xs) i j - pcov_of (burn nb xs) i j).
Proof.
  intros nb. induction xs as [|x xs IH] using rev_ind; intros H.
  - pose proof (burn_len_bounds r). simpl in H. unfold nb in H. lia.
  - rewrite app_length in *. cbn [length] in *. unfold burn in *.
    destruct (Nat.eq_dec (length xs + 1) nb) as [E|E].
    + rewrite firstn_all2 by (rewrite app_length; simpl; lia).
      replace (length xs + 1 - nb)%nat with 0%nat by lia. simpl pow.
      unfold ewa_cov at 1, burn, after. rewrite firstn_all2, skipn_all2 by (rewrite app_length; simpl; lia).
      rewrite ewc_nil. ring.
    + specialize (IH ltac:(lia)). rewrite firstn_snoc by lia.
      unfold innov_cov at 1. rewrite rw_avg_snoc, ewa_cov_step. cbv zeta. destruct (Nat.ltb_spec (length xs) nb); [lia|].
      replace (length xs + 1 - nb)%nat with (S (length xs - nb)) by lia. simpl pow. rewrite Rmult_assoc, <- IH.
      unfold innov_cov, dev. ring.
Qed.

(** ** C39 *)
Definition floored_vol (h : R) : R := sqrt (Rmax h e12).
(** tracked variances; standardised residuals; quasi-correlation *)
Definition dcc_variance (rv : R) (nb : nat) (xs : list obs) (i : nat) : R := innov_var rv nb xs i.
Definition dcc_residual (rv : R) (nb : nat) (pre : list obs) (x : obs) (i : nat) : R :=
  dev rv nb pre x i / floored_vol (dcc_variance rv nb (pre ++ [x]) i).
Definition dcc_quasi (r rv : R) (nb : nat) (xs : list obs) (i j : nat) : R :=
  rw_avg r nb (fun pre x => dcc_residual rv nb pre x i * dcc_residual rv nb pre x j) xs.
Lemma svol_sq h : e12 <= h -> svol h * svol h = h.
Proof. intros H. unfold svol. rewrite Rmax_left by auto. apply sqrt_sqrt. pose proof e12_pos. lra. Qed.
Lemma svol_sq_ge h : h <= svol h * svol h.
Proof. unfold svol. rewrite sqrt_sqrt; [apply Rmax_l|]. pose proof e12_pos. pose proof (Rmax_r h e12). lra. Qed.
Theorem C39_dcc_composition p r vol_r diff rows xs :
  let rv := match vol_r with Some v => v | None => r end in
  let nb := burn_len (Rmin r rv) in
  0 < r <= 1 -> 0 < rv <= 1 -> observes p diff rows xs -> xs <> [] ->
  exists o Rm, fitted_on (C := DCC) (DCCP r vol_r diff) rows o /\
    location_ o = Ok (fv p (ewa_mean rv nb xs)) /\
    (let d i := floored_vol (dcc_variance rv nb xs i) in
     covariance_ o = Ok (fm p p (fun i j => Rm i j * (d i * d j)))) /\
    (let Q := dcc_quasi r rv nb xs in
     forall i j, Rm i j = Q i j / (floored_vol (Q i i) * floored_vol (Q j j))) /\
    psd p Rm /\ (forall i j, (i < p)%nat -> (j < p)%nat -> Rabs (Rm i j) <= 1) /\
    (forall i, e12 <= dcc_quasi r rv nb xs i i -> Rm i i = 1) /\
    (forall i, e12 <= dcc_quasi r rv nb xs i i -> e12 <= dcc_variance rv nb xs i ->
       let d i := floored_vol (dcc_variance rv nb xs i) in
       Rm i i * (d i * d i) = dcc_variance rv nb xs i).
Proof.
  intros rv nb Hr Hrv Ho Hx.
  assert (Hm : 0 < Rmin r rv) by (apply Rmin_glb_lt; lra).
  destruct (DCC_run p r vol_r diff rows xs) as (o & E1 & _ & E3 & E4 & _); auto; [unfold vol_rate; fold rv; lra|].
  change (vol_rate r vol_r) with rv in *. fold nb in E3, E4.
  set (Q := dcc_Q r rv nb xs) in *. exists o, (qcorr Q). split; [exact E1|]. split; [exact E3|]. split; [exact E4|].
  assert (PQ : psd p Q).
  { apply (psd_rw_avg p r nb (fun pre x i j => dcc_eps rv nb pre x i * dcc_eps rv nb pre x j)); [lra|]. intros. apply psd_outer. }
  assert (QE : forall i j, qcorr Q i j = Q i j / (svol (Q i i) * svol (Q j j))).
  { intros i j. unfold qcorr. field. split; apply svol_nz. }
  assert (D1 : forall i, e12 <= Q i i -> qcorr Q i i = 1).
  { intros i Hi. rewrite QE, svol_sq by auto. field. pose proof e12_pos. lra. }
  split; [exact QE|]. split; [|split; [|split]].
  - unfold qcorr. now apply (psd_congr_diag p Q (fun i => 1 / svol (Q i i))).
  - intros i j Hi Hj. rewrite QE. pose proof (svol_pos (Q i i)) as P1. pose proof (svol_pos (Q j j)) as P2.
    assert (P : 0 < svol (Q i i) * svol (Q j j)) by now apply Rmult_lt_0_compat.
    unfold Rdiv. rewrite Rabs_mult, (Rabs_right (/ _)) by (left; apply Rinv_0_lt_compat; auto).
    apply Rmult_le_reg_r with (svol (Q i i) * svol (Q j j)); auto. rewrite Rmult_assoc, Rinv_l, Rmult_1_r, Rmult_1_l by lra.
    apply Rsqr_incr_0_var; [|lra]. rewrite <- Rsqr_abs. unfold Rsqr.
    pose proof (psd_cauchy p Q i j PQ Hi Hj). pose proof (svol_sq_ge (Q i i)). pose proof (svol_sq_ge (Q j j)).
    pose proof (psd_diag_nonneg p Q i PQ Hi). pose proof (psd_diag_nonneg p Q j PQ Hj).
    apply Rle_trans with (Q i i * Q j j); auto.
    replace (svol (Q i i) * svol (Q j j) * (svol (Q i i) * svol (Q j j))) with ((svol (Q i i) * svol (Q i i)) * (svol (Q j j) * svol (Q j j))) by ring.
    apply Rmult_le_compat; auto.
  - exact D1.
  - intros i Hq Hh. cbv zeta. rewrite D1 by auto.
    change (1 * (svol (dcc_variance rv nb xs i) * svol (dcc_variance rv nb xs i)) = dcc_variance rv nb xs i). rewrite svol_sq by auto. ring.
Qed.
Theorem C18_dcc_psd p r vol_r diff rows xs : let rv := match vol_r with Some v => v | None => r end in
  0 < r <= 1 -> 0 < rv <= 1 -> observes p diff rows xs -> xs <> [] ->
  exists o, fitted_on (C := DCC) (DCCP r vol_r diff) rows o /\ psd_cov p o.
Proof.
  intros rv Hr Hrv Ho Hx. assert (Hm : 0 < Rmin r rv) by (apply Rmin_glb_lt; lra).
  destruct (DCC_run p r vol_r diff rows xs) as (o & E1 & _ & E3 & E4 & _); auto; [unfold vol_rate; fold rv; lra|].
  exists o. split; [exact E1|]. eexists. split; [exact E4|]. apply psd_dcc. lra.
Qed.
Theorem C23_dcc_finite p r vol_r diff rows xs : let rv := match vol_r with Some v => v | None => r end in
  0 < r <= 1 -> 0 < rv <= 1 -> observes p diff rows xs -> xs <> [] ->
  exists o, fitted_on (C := DCC) (DCCP r vol_r diff) rows o /\ finite_fitted p o.
Proof.
  intros rv Hr Hrv Ho Hx. assert (Hm : 0 < Rmin r rv) by (apply Rmin_glb_lt; lra).
  destruct (DCC_run p r vol_r diff rows xs) as (o & E1 & _ & E3 & E4 & _); auto; [unfold vol_rate; fold rv; lra|].
  exists o. split; [exact E1|]. eapply finite_fitted_intro; eauto. intros i Hi. apply (psd_diag_nonneg p); auto. apply psd_dcc. lra.
Qed.

(** ** C40 *)
Definition length2 (p : nat) (v : obs) : R := sqrt (rsum p (fun i => v i * v i)).
(** covariance carried by the components longer than 1e-12: sum of v v^T / |v| *)
Definition captured (p : nat) (vs : list obs) (i j : nat) : R :=
  lsum (map (fun v => if Rltb e12 (length2 p v) then v i * v j / length2 p v else 0) vs).
Theorem C40_factor_dominates p k r diff rows xs : let nb := (Nat.min k p + 1)%nat in
  0 < r <= 1 -> observes p diff rows xs -> xs <> [] ->
  exists o vs H, fitted_on (C := Factor) (FACP k r diff) rows o /\
    location_ o = Ok (fv p (ewa_mean r nb xs)) /\ covariance_ o = Ok (fm p p H) /\
    length vs = Nat.min k p /\ psd p H /\
    (forall i, H i i = Rmax (innov_var r nb xs i) (captured p vs i i)) /\
    (forall i j, i <> j -> H i j = captured p vs i j).
Proof.
  intros nb Hr Ho Hx. destruct (Factor_run p k r diff rows xs) as (o & E1 & _ & E3 & E4 & _); auto.
  exists o, (fac_comps p (Nat.min k p) r xs). eexists. split; [exact E1|]. split; [exact E3|]. split; [exact E4|].
  split; [|split; [apply psd_fac|split]].
  - pose proof (fac_fold p (Nat.min k p) r xs) as F. cbv zeta in F. apply F.
  - intros i. apply fac_diag.
  - intros i j Hij. unfold fac_H, rdiag. destruct (Nat.eqb_spec i j); [contradiction|]. rewrite Rplus_0_r. reflexivity.
Qed.
Theorem C18_factor_psd p k r diff rows xs : 0 < r <= 1 -> observes p diff rows xs -> xs <> [] ->
  exists o, fitted_on (C := Factor) (FACP k r diff) rows o /\ psd_cov p o.
Proof.
  intros Hr Ho Hx. destruct (Factor_run p k r diff rows xs) as (o & E1 & _ & E3 & E4 & _); auto.
  exists o. split; [exact E1|]. eexists. split; [exact E4|]. apply psd_fac.
Qed.
Theorem C23_factor_finite p k r diff rows xs : 0 < r <= 1 -> observes p diff rows xs -> xs <> [] ->
  exists o, fitted_on (C := Factor) (FACP k r diff) rows o /\ finite_fitted p o.
Proof.
  intros Hr Ho Hx. destruct (Factor_run p k r diff rows xs) as (o & E1 & _ & E3 & E4 & _); auto.
  exists o. split; [exact E1|]. eapply finite_fitted_intro; eauto. intros i Hi. apply (psd_diag_nonneg p); auto. apply psd_fac.
Qed.

(** Concrete cases: a two-row stream meets the hypotheses, with a strictly positive tracked variance
    and quasi-correlation (so the floor conditions of C39 hold), and the first component of C40 is live. *)
Definition mom_ex : list obs := [fun i => if Nat.eqb i 0 then 1 else 2; fun i => if Nat.eqb i 0 then 3 else 1].
Example moment_hypotheses_met : 0 < 1 / 10 <= 1 /\ observes 2 false (map (fv 2) mom_ex) mom_ex /\ mom_ex <> [] /\
  innov_var (1 / 10) (burn_len (1 / 10)) mom_ex 0 = 5 / 2 /\
  e12 <= dcc_quasi (1 / 10) (1 / 10) (burn_len (1 / 10)) mom_ex 0 0.
Proof.
  split; [lra|]. split; [apply observes_plain|]. split; [discriminate|].
  pose proof (burn_len_bounds (1 / 10)) as Hb. set (nb := burn_len (1 / 10)) in *. set (r := 1 / 10).
  set (a := fun i : nat => if Nat.eqb i 0 then 1 else 2). set (b := fun i : nat => if Nat.eqb i 0 then 3 else 1).
  assert (L0 : Nat.ltb 0 nb = true) by (apply Nat.ltb_lt; lia). assert (L1 : Nat.ltb 1 nb = true) by (apply Nat.ltb_lt; lia).
  assert (M1 : ewa_mean r nb [a] 0%nat = 1).
  { change [a] with ([] ++ [a])%list. rewrite ewa_step_eq, ewa_mean_nil. cbn [length]. rewrite L0. unfold a. simpl. field. }
  assert (V1 : innov_var r nb [a] 0 = 1).
  { unfold innov_var. change [a] with ([] ++ [a])%list. rewrite rw_avg_snoc, rw_avg_nil. cbn [length]. rewrite L0.
    unfold dev. rewrite ewa_mean_nil. unfold a. simpl. field. }
  assert (V : innov_var r nb mom_ex 0 = 5 / 2).
  { unfold innov_var. change mom_ex with ([a] ++ [b])%list. rewrite rw_avg_snoc. cbn [length]. rewrite L1.
    change (rw_avg r nb _ [a]) with (innov_var r nb [a] 0). rewrite V1. unfold dev. rewrite M1. unfold b. simpl. field. }
  split; [exact V|].
  unfold dcc_quasi. change mom_ex with ([a] ++ [b])%list. rewrite rw_avg_snoc. cbn [length]. rewrite L1.
  set (q1 := rw_avg r nb _ [a]). assert (Q1 : 0 <= q1) by (apply rw_avg_nonneg; [unfold r; lra|intros; apply Rle_0_sqr]).
  unfold dcc_residual, dcc_variance. change ([a] ++ [b])%list with mom_ex. rewrite V.
  unfold dev. rewrite M1. replace (b 0%nat) with 3 by reflexivity.
  assert (S2 : svol (5 / 2) * svol (5 / 2) = 5 / 2) by (apply svol_sq; unfold e12; lra).
  pose proof (svol_pos (5 / 2)). change (floored_vol (5 / 2)) with (svol (5 / 2)).
  replace ((3 - 1) / svol (5 / 2) * ((3 - 1) / svol (5 / 2))) with (4 / (svol (5 / 2) * svol (5 / 2))) by (field; lra).
  rewrite S2. simpl. unfold e12. lra.
Qed.

(** * Diagonal, DCC and PartialMoments on finite streams *)
From Coq Require Import Reals ZArith String List Lia Lra Arith Bool.
From Verif Require Import Num Numpy PyVal LinalgModel StateModel BaseModel Estimators
  Spec ListLemmas BaseProofs RMat Fin RealSpec RunFin EwaReal RunAvg EmpFacts ShrinkReal.
Import ListNotations.
Local Open Scope string_scope.
Local Open Scope R_scope.

Lemma ewa_mean_nil r nb i : ewa_mean r nb [] i = 0.
Proof. unfold ewa_mean, burn, after. rewrite firstn_nil, skipn_nil, ewm_nil, mean_nil. reflexivity. Qed.

(** one running-average step, as all these classes write it *)
Definition avg (r : R) (nb n : nat) (old new : R) : R :=
  if Nat.ltb n nb then old + (new - old) / INR (S n) else (1 - r) * old + r * new.
Lemma rw_avg_step r nb g xs x : rw_avg r nb g (xs ++ [x]) = avg r nb (length xs) (rw_avg r nb g xs) (g xs x).
Proof. apply rw_avg_snoc. Qed.
Lemma ewa_mean_step r nb xs x i : ewa_mean r nb (xs ++ [x]) i = avg r nb (length xs) (ewa_mean r nb xs i) (x i).
Proof. apply ewa_step_eq. Qed.

Lemma vavg_fin p r nb n f g : (if Nat.ltb n nb then d <- @vsub NumX (fv p g) (fv p f) ;; vadd (fv p f) (vdivs d (nofn (S n)))
   else vadd (vscale (nsub n1 (Fin r : NumX)) (fv p f)) (vscale (Fin r : NumX) (fv p g))) = Ok (fv p (fun i => avg r nb n (f i) (g i))).
Proof.
  unfold avg. destruct (Nat.ltb n nb).
  - rewrite vsub_fin. cbn [bind]. rewrite nofn_fin, vdivs_fin by auto. now rewrite vadd_fin.
  - rewrite n1_fin, sub_fin, !vscale_fin. now rewrite vadd_fin.
Qed.
Lemma mavg_fin p r nb n F G : (if Nat.ltb n nb then d <- @msub NumX (fm p p G) (fm p p F) ;; madd (fm p p F) (mdivs d (nofn (S n)))
   else madd (mscale (nsub n1 (Fin r : NumX)) (fm p p F)) (mscale (Fin r : NumX) (fm p p G))) = Ok (fm p p (fun i j => avg r nb n (F i j) (G i j))).
Proof.
  unfold avg. destruct (Nat.ltb n nb).
  - rewrite msub_fin. cbn [bind]. rewrite nofn_fin, mdivs_fin by auto. now rewrite madd_fin.
  - rewrite n1_fin, sub_fin, !mscale_fin. now rewrite madd_fin.
Qed.

(** ** Diagonal *)
Record dst := mkD { dn : nat; dm_ : obs; dv : obs }.
Definition diag_d (p : nat) (r : R) (nb : nat) (a : dst) : dict NumX :=
  [("n_dim", VInt p); ("n_samples", VInt (dn a)); ("mean", VArr (A1 (fv p (dm_ a))));
   ("var", VArr (A1 (fv p (dv a)))); ("r", VNum (Fin r : NumX)); ("n_burn", VInt nb)].
Definition diag_step (r : R) (nb : nat) (a : dst) (x : obs) : dst :=
  mkD (S (dn a)) (fun i => avg r nb (dn a) (dm_ a i) (x i))
      (fun i => avg r nb (dn a) (dv a i) ((x i - dm_ a i) * (x i - dm_ a i))).
Lemma diag_update_fin p r nb a x : diag_update (diag_d p r nb a) (fv p x) = Ok (diag_d p r nb (diag_step r nb a x)).
Proof.
  unfold diag_update, diag_d. rd. rewrite vsub_fin. cbn [bind]. rewrite vmul_fin. cbn [bind].
  unfold diag_step, avg. cbn [dn dm_ dv]. change (Nat.leb (S (dn a)) nb) with (Nat.ltb (dn a) nb).
  destruct (Nat.ltb (dn a) nb).
  - rewrite nofn_fin, vdivs_fin by auto. rewrite vadd_fin. cbn [bind]. rewrite vsub_fin. cbn [bind].
    rewrite vdivs_fin by auto. rewrite vadd_fin. reflexivity.
  - rewrite n1_fin, sub_fin, !vscale_fin, !vadd_fin. reflexivity.
Qed.
Definition d_init : dst := mkD 0 (fun _ => 0) (fun _ => 0).
Lemma diag_fold r nb xs : let a := fold_left (diag_step r nb) xs d_init in
  dn a = length xs /\ (forall i, dm_ a i = ewa_mean r nb xs i) /\
  (forall i, dv a i = rw_avg r nb (fun pre x => dev r nb pre x i * dev r nb pre x i) xs).
Proof.
  cbv zeta. induction xs as [|x xs IH] using rev_ind.
  - simpl. repeat split; intros; [now rewrite ewa_mean_nil|now rewrite rw_avg_nil].
  - destruct IH as (I1 & I2 & I3). rewrite fold_left_app. cbn [fold_left].
    set (a := fold_left (diag_step r nb) xs d_init) in *. unfold diag_step. cbn [dn dm_ dv].
    rewrite app_length, I1. cbn [length]. split; [lia|]. split; intros i.
    + now rewrite ewa_mean_step, I2.
    + rewrite rw_avg_step, I2, I3. reflexivity.
Qed.
Lemma diag_pair r : diff_pair Diagonal (mkEwaP (N := NumX) (Fin r)).
Proof. split; [reflexivity|]. repeat split; intros; try reflexivity; try discriminate. Qed.
Lemma sym_rdiag n d : sym n (rdiag d).
Proof. intros i j _ _. unfold rdiag. rewrite (Nat.eqb_sym j i). destruct (Nat.eqb_spec i j); subst; auto. Qed.
Definition diag_var (r : R) (xs : list obs) (i : nat) : R :=
  rw_avg r (burn_len r) (fun pre x => dev r (burn_len r) pre x i * dev r (burn_len r) pre x i) xs.
Lemma Diagonal_run p r diff rows xs : r <> 0 -> observes p diff rows xs -> xs <> [] ->
  exists o, partial_fit (new (C := Diagonal) (mkEwaP (N := NumX) (Fin r) diff)) (In2 rows) = (o, Ok tt) /\
    n_samples_ o = Ok (length xs) /\
    location_ o = Ok (fv p (ewa_mean r (burn_len r) xs)) /\
    covariance_ o = Ok (fm p p (rdiag (diag_var r xs))) /\
    correlation_ o = cov_to_corrcoef (fm p p (rdiag (diag_var r xs))).
Proof.
  intros Hr Ho Hx. destruct (length_S xs Hx) as (n & Hn).
  pose proof (diag_fold r (burn_len r) xs) as E. cbv zeta in E. destruct E as (E1 & E2 & E3).
  destruct (run_reads (C := Diagonal) (mkEwaP (N := NumX) (Fin r)) (diag_pair r) (diag_d p r (burn_len r)) (diag_step r (burn_len r))
             (fun _ => True) p d_init) with (xs := xs) (diff := diff) (rows := rows) (n := n)
    as (o & R1 & R2 & R3 & R4 & R5 & R6 & _); auto.
  - cbn [c_init Diagonal dict_class]. unfold diag_init. cbn [ewa_r]. rewrite burn_fin by auto. reflexivity.
  - intros st x _. split; auto. apply diag_update_fin.
  - cbn. unfold dict_nsamples, diag_d. rd. now rewrite E1, Hn.
  - exists o. split; [exact R1|]. rewrite Hn. split; [exact R2|].
    assert (Cv : covariance_ o = Ok (fm p p (rdiag (diag_var r xs)))).
    { rewrite R4. cbn [c_cov Diagonal dict_class]. unfold diag_cov, diag_d. rd.
      rewrite (fv_ext p _ (diag_var r xs)) by (intros; apply E3). rewrite mdiag_fin.
      apply to_symmetric_sym_fin. apply sym_rdiag. }
    split; [|split; [exact Cv|]].
    + rewrite R3. cbn [c_mean Diagonal dict_class]. unfold dict_mean, diag_d. rd. f_equal. now apply fv_ext.
    + rewrite R5, Cv. reflexivity.
Qed.
(** The Diagonal variance is the EWA variance plus something nonnegative: during the burn-in
    the empirical variance uses the innovation about the old times the one about the new mean. *)
Lemma diag_ge_ewa r nb xs i : 0 <= r <= 1 ->
  ewa_cov r nb xs i i <= rw_avg r nb (fun pre x => dev r nb pre x i * dev r nb pre x i) xs.
Proof.
  intros Hr. induction xs as [|x xs IH] using rev_ind.
  - rewrite rw_avg_nil. unfold ewa_cov, burn, after. rewrite firstn_nil, skipn_nil, ewc_nil, pcov_nil. lra.
  - rewrite rw_avg_step, ewa_cov_step. unfold avg, dev. cbv zeta.
    set (d := x i - ewa_mean r nb xs i). set (v := rw_avg _ _ _ _) in *. set (c := ewa_cov r nb xs i i) in *.
    destruct (Nat.ltb (length xs) nb).
    + pose proof (inv_S_range (length xs)) as Hk. set (k := / INR (S (length xs))) in *.
      assert (Hn : INR (length xs) / INR (S (length xs)) = 1 - k).
      { unfold k. rewrite S_INR. field. rewrite <- S_INR. auto. }
      replace (c * INR (length xs) / INR (S (length xs))) with (c * (1 - k)) by (rewrite <- Hn; unfold Rdiv; ring).
      unfold Rdiv. fold k. assert (0 <= d * d) by apply Rle_0_sqr.
      assert (c * (1 - k) <= v * (1 - k)) by (apply Rmult_le_compat_r; lra).
      assert (0 <= d * d * (k * k)) by (apply Rmult_le_pos; [auto|apply Rle_0_sqr]).
      replace (v + (d * d - v) * k) with (v * (1 - k) + d * d * k) by ring.
      replace (x i - (ewa_mean r nb xs i + d * k)) with (d * (1 - k)) by (unfold d; ring).
      replace (d * (d * (1 - k) * k)) with (d * d * k - d * d * (k * k)) by ring. lra.
    + assert ((1 - r) * c <= (1 - r) * v) by (apply Rmult_le_compat_l; lra). lra.
Qed.

(** ** DCC *)
Record cst := mkC { cn : nat; cm : obs; ch : obs; cQ : rmat }.
Definition dcc_tail (p : nat) (r rv : R) (nb : nat) (a : cst) : dict NumX :=
  [("h", VArr (A1 (fv p (ch a)))); ("Q", VArr (A2 (fm p p (cQ a)))); ("r", VNum (Fin r : NumX));
   ("vol_r", VNum (Fin rv : NumX)); ("n_burn", VInt nb)].
Definition dcc_d (p : nat) (r rv : R) (nb : nat) (a : cst) : dict NumX :=
  ([("n_dim", VInt p); ("n_samples", VInt (cn a)); ("mean", VArr (A1 (fv p (cm a))))] ++
   (match cn a with O => [("cov", VArr (A2 (mzeros p p)))] | _ => [] end) ++ dcc_tail p r rv nb a)%list.
Definition svol (h : R) : R := sqrt (Rmax h e12).
Lemma svol_pos h : 0 < svol h.
Proof. apply sqrt_lt_R0. pose proof e12_pos. pose proof (Rmax_r h e12). lra. Qed.
Lemma svol_nz h : svol h <> 0.
Proof. pose proof (svol_pos h). lra. Qed.
Definition dcc_step (r rv : R) (nb : nat) (a : cst) (x : obs) : cst :=
  let d := fun i => x i - cm a i in
  let h := fun i => avg rv nb (cn a) (ch a i) (d i * d i) in
  let e := fun i => d i / svol (h i) in
  mkC (S (cn a)) (fun i => avg rv nb (cn a) (cm a i) (x i)) h
      (fun i j => avg r nb (cn a) (cQ a i j) (e i * e j)).
Lemma svol_map_fin p h : map (fun v => @nsqrt NumX (np_max v (nlit 1 12))) (fv p h) = fv p (fun i => svol (h i)).
Proof.
  apply map_fin. intros i _. rewrite lit12, np_max_fin. apply sqrt_fin.
  pose proof e12_pos. pose proof (Rmax_r (h i) e12). lra.
Qed.
Lemma dcc_update_fin p r rv nb a x : dcc_update (dcc_d p r rv nb a) (fv p x) = Ok (dcc_d p r rv nb (dcc_step r rv nb a x)).
Proof.
  assert (G : forall b, dcc_update
     ([("n_dim", VInt p); ("n_samples", VInt (cn a)); ("mean", VArr (A1 (fv p (cm a))))] ++
      (if b : bool then [("cov", VArr (A2 (mzeros p p)))] else []) ++ dcc_tail p r rv nb a)%list (fv p x) =
     Ok (dcc_d p r rv nb (dcc_step r rv nb a x))).
  { intros b. unfold dcc_update. destruct b; unfold dcc_tail at 1 2 3 4 5 6 7 8; rd.
    all: rewrite vsub_fin; cbn [bind]; rewrite vmul_fin; cbn [bind];
      change (Nat.leb (S (cn a)) nb) with (Nat.ltb (cn a) nb).
    all: unfold dcc_d, dcc_step; cbn [cn cm ch cQ app].
    all: unfold avg; destruct (Nat.ltb (cn a) nb);
      [ rewrite nofn_fin, vdivs_fin by auto; rewrite vadd_fin; cbn [bind]; rewrite vsub_fin; cbn [bind];
        rewrite vdivs_fin by auto; rewrite vadd_fin
      | rewrite n1_fin, !sub_fin, !vscale_fin, !vadd_fin ]; cbn [bind];
      rewrite svol_map_fin, vdiv_fin by (intros; apply svol_nz); cbn [bind]; rewrite outer_fin.
    all: first [ rewrite msub_fin; cbn [bind]; rewrite mdivs_fin by auto; rewrite madd_fin
               | rewrite !mscale_fin, madd_fin ]; reflexivity. }
  unfold dcc_d at 1. destruct (cn a); [exact (G true)|exact (G false)].
Qed.
Definition c_init_ : cst := mkC 0 (fun _ => 0) (fun _ => 1) rI.
Definition dcc_h (rv : R) (nb : nat) (xs : list obs) (i : nat) : R :=
  rw_avg rv nb (fun pre x => dev rv nb pre x i * dev rv nb pre x i) xs.
(** standardised innovation: by the volatility that already includes it, floored at 1e-6 *)
Definition dcc_eps (rv : R) (nb : nat) (pre : list obs) (x : obs) (i : nat) : R :=
  dev rv nb pre x i / svol (dcc_h rv nb (pre ++ [x])%list i).
Definition dcc_Q (r rv : R) (nb : nat) (xs : list obs) (i j : nat) : R :=
  rw_avg r nb (fun pre x => dcc_eps rv nb pre x i * dcc_eps rv nb pre x j) xs.
Lemma avg_first r nb a b c : (1 <= nb)%nat -> avg r nb 0 a c = avg r nb 0 b c.
Proof. intros. unfold avg. destruct (Nat.ltb_spec 0 nb); [|lia]. simpl. field. Qed.
Lemma dcc_fold r rv nb xs : (1 <= nb)%nat -> let a := fold_left (dcc_step r rv nb) xs c_init_ in
  cn a = length xs /\ (forall i, cm a i = ewa_mean rv nb xs i) /\
  (xs <> [] -> (forall i, ch a i = dcc_h rv nb xs i) /\ (forall i j, cQ a i j = dcc_Q r rv nb xs i j)).
Proof.
  intros Hnb. cbv zeta. induction xs as [|x xs IH] using rev_ind.
  - simpl. split; auto. split; [intros; now rewrite ewa_mean_nil|congruence].
  - destruct IH as (I1 & I2 & I3). rewrite fold_left_app. cbn [fold_left].
    set (a := fold_left (dcc_step r rv nb) xs c_init_) in *. unfold dcc_step. cbn [cn cm ch cQ].
    rewrite app_length, I1. cbn [length]. split; [lia|]. split.
    + intros i. now rewrite ewa_mean_step, I2.
    + intros _.
      assert (Hh : forall i, avg rv nb (length xs) (ch a i) ((x i - cm a i) * (x i - cm a i)) = dcc_h rv nb (xs ++ [x])%list i).
      { intros i. unfold dcc_h. rewrite rw_avg_step, I2. destruct xs as [|y ys].
        - cbn [length]. now apply avg_first.
        - rewrite (proj1 (I3 ltac:(discriminate))). reflexivity. }
      split; [exact Hh|]. intros i j. unfold dcc_Q. rewrite rw_avg_step, !Hh, !I2. destruct xs as [|y ys].
      * cbn [length]. now apply avg_first.
      * rewrite (proj2 (I3 ltac:(discriminate))). reflexivity.
Qed.
Definition DCCP (r : R) (vol_r : option R) (diff : bool) : DccP (N := NumX) :=
  mkDccP (Fin r : NumX) (match vol_r with Some v => Some (Fin v : NumX) | None => None end) diff.
Definition vol_rate (r : R) (vol_r : option R) : R := match vol_r with Some v => v | None => r end.
Lemma dcc_pair r vol_r : diff_pair DCC (DCCP r vol_r).
Proof. split; [reflexivity|]. repeat split; intros; try reflexivity; try discriminate. Qed.
(** correlation matrix of a quasi-correlation [Q] *)
Definition qcorr (Q : rmat) : rmat := fun i j => Q i j * ((1 / svol (Q i i)) * (1 / svol (Q j j))).
Definition dcc_H (Q : rmat) (h : obs) : rmat := fun i j => qcorr Q i j * (svol (h i) * svol (h j)).
Lemma dcc_cov_fin p r rv nb a : dcc_cov (dcc_d p r rv nb a) = Ok (fm p p (dcc_H (cQ a) (ch a))).
Proof.
  unfold dcc_cov, dcc_d, dcc_tail. destruct (cn a); rd.
  all: rewrite diagonal_fin, (map_fin p _ (fun i => 1 / svol (cQ a i i)) (fun i => cQ a i i)) by
    (intros i _; rewrite lit12, np_max_fin, sqrt_fin, n1_fin by (pose proof e12_pos; pose proof (Rmax_r (cQ a i i) e12); lra);
     apply div_fin, svol_nz).
  all: rewrite outer_fin, mmul_fin; cbn [bind]; rewrite svol_map_fin, outer_fin, mmul_fin; reflexivity.
Qed.
Lemma sym_dcc_H n Q h : sym n Q -> sym n (dcc_H Q h).
Proof. intros H i j Hi Hj. unfold dcc_H, qcorr. rewrite (H i j Hi Hj). ring. Qed.
Lemma sym_rw n r nb (e : list obs -> obs -> obs) xs : sym n (fun i j => rw_avg r nb (fun pre x => e pre x i * e pre x j) xs).
Proof. intros i j _ _. apply rw_avg_ext. intros. ring. Qed.
Lemma dcc_H_ext p Q Q' h h' : meq p p Q Q' -> (forall i, (i < p)%nat -> h i = h' i) -> meq p p (dcc_H Q h) (dcc_H Q' h').
Proof. intros H1 H2 i j Hi Hj. unfold dcc_H, qcorr. now rewrite !H1, !H2 by auto. Qed.
Lemma DCC_run p r vol_r diff rows xs : let rv := vol_rate r vol_r in let nb := burn_len (Rmin r rv) in
  Rmin r rv <> 0 -> observes p diff rows xs -> xs <> [] ->
  exists o, partial_fit (new (C := DCC) (DCCP r vol_r diff)) (In2 rows) = (o, Ok tt) /\ n_samples_ o = Ok (length xs) /\
    location_ o = Ok (fv p (ewa_mean rv nb xs)) /\
    covariance_ o = Ok (fm p p (dcc_H (dcc_Q r rv nb xs) (dcc_h rv nb xs))) /\
    correlation_ o = cov_to_corrcoef (fm p p (dcc_H (dcc_Q r rv nb xs) (dcc_h rv nb xs))).
Proof.
  intros rv nb Hr Ho Hx. destruct (length_S xs Hx) as (n & Hn).
  assert (Hnb : (1 <= nb)%nat) by (unfold nb; pose proof (burn_len_bounds (Rmin r rv)); lia).
  pose proof (dcc_fold r rv nb xs Hnb) as E. cbv zeta in E. destruct E as (E1 & E2 & E3).
  destruct (E3 Hx) as [E4 E5].
  destruct (run_reads (C := DCC) (DCCP r vol_r) (dcc_pair r vol_r) (dcc_d p r rv nb) (dcc_step r rv nb)
             (fun _ => True) p c_init_) with (xs := xs) (diff := diff) (rows := rows) (n := n)
    as (o & R1 & R2 & R3 & R4 & R5 & R6 & _); auto.
  - cbn [c_init DCC dict_class]. unfold dcc_init. cbn [DCCP dcc_r dcc_vol_r].
    replace (match match vol_r with Some v => Some (Fin v : NumX) | None => None end with Some v => v | None => Fin r end)
      with (Fin rv : NumX) by (unfold rv, vol_rate; destruct vol_r; reflexivity).
    rewrite py_min_fin, burn_fin by auto. cbn [bind]. fold nb. rewrite meye_fin. reflexivity.
  - intros st x _. split; auto. apply dcc_update_fin.
  - cbn. unfold dict_nsamples, dcc_d. rd. now rewrite E1, Hn.
  - exists o. split; [exact R1|]. rewrite Hn. split; [exact R2|].
    assert (Cv : covariance_ o = Ok (fm p p (dcc_H (dcc_Q r rv nb xs) (dcc_h rv nb xs)))).
    { rewrite R4. cbn [c_cov DCC dict_class]. rewrite dcc_cov_fin. cbn [bind].
      rewrite (fm_ext p p _ (dcc_H (dcc_Q r rv nb xs) (dcc_h rv nb xs))).
      - apply to_symmetric_sym_fin, sym_dcc_H, sym_rw.
      - apply dcc_H_ext; auto. intros i j _ _. apply E5. }
    split; [|split; [exact Cv|]].
    + rewrite R3. cbn [c_mean DCC dict_class]. unfold dict_mean, dcc_d. rd. f_equal. now apply fv_ext.
    + rewrite R5, Cv. reflexivity.
Qed.
Lemma psd_dcc n r rv nb xs h : 0 <= r <= 1 -> psd n (dcc_H (dcc_Q r rv nb xs) h).
Proof.
  intros Hr. unfold dcc_H. apply (psd_congr_diag n (qcorr (dcc_Q r rv nb xs)) (fun i => svol (h i))).
  unfold qcorr. apply (psd_congr_diag n (dcc_Q r rv nb xs) (fun i => 1 / svol (dcc_Q r rv nb xs i i))).
  apply (psd_rw_avg n r nb (fun pre x i j => dcc_eps rv nb pre x i * dcc_eps rv nb pre x j)); auto.
  intros. apply psd_outer.
Qed.

(** ** PartialMoments *)
Definition leg (s : Z) (c : R) : R := Rmax (c * IZR s) 0 * IZR s.
Lemma pm_leg_fin p s f : pm_leg (N := NumX) s (fv p f) = fv p (fun i => leg s (f i)).
Proof. apply map_fin. intros i _. rewrite nofZ_fin, mul_fin, n0_fin, np_clip_lo_fin, mul_fin. reflexivity. Qed.
(** the four quadrant scatters add up to the plain outer product *)
Lemma legs_sum a b : leg 1 a * leg 1 b + leg (-1) a * leg 1 b + leg 1 a * leg (-1) b + leg (-1) a * leg (-1) b = a * b.
Proof.
  unfold leg. assert (H : forall c, Rmax (c * 1) 0 * 1 + Rmax (c * -1) 0 * -1 = c).
  { intros c. unfold Rmax. destruct (Rle_dec (c * 1) 0), (Rle_dec (c * -1) 0); lra. }
  rewrite <- (H a) at 5. rewrite <- (H b) at 5. ring.
Qed.
Record pst := mkP { pn : nat; pm_ : obs; pq : list rmat }.
Definition pm_d (p : nat) (r : R) (nb : nat) (a : pst) : dict NumX :=
  [("n_dim", VInt p); ("n_samples", VInt (pn a)); ("mean", VArr (A1 (fv p (pm_ a))));
   ("quadrants", VArr (A3 (map (fm p p) (pq a)))); ("r", VNum (Fin r : NumX)); ("n_burn", VInt nb)].
Definition pm_step (r : R) (nb : nat) (a : pst) (x : obs) : pst :=
  mkP (S (pn a)) (fun i => avg r nb (pn a) (pm_ a i) (x i))
      (zipw (fun (F : rmat) (sg : Z * Z) => fun i j => avg r nb (pn a) (F i j)
          (leg (fst sg) (x i - pm_ a i) * leg (snd sg) (x j - pm_ a j))) (pq a) QUADRANTS).
Lemma slot_assign_fin p F G : slot_assign (N := NumX) (fm p p F) (fm p p G) = Ok (fm p p G).
Proof.
  unfold slot_assign. rewrite !fm_nrows, Nat.eqb_refl. destruct p as [|p]; [reflexivity|]. rewrite !fm_ncols by lia. now rewrite Nat.eqb_refl.
Qed.
Lemma pm_quads_fin p r nb n c Fs sgs : length Fs = length sgs ->
  zipM (fun pq sg =>
        let scatter := outer (pm_leg (fst sg) (fv p c)) (pm_leg (snd sg) (fv p c)) in
        new <- (if Nat.leb (S n) nb
                then d <- msub scatter pq ;; madd pq (mdivs d (nofn (S n)))
                else madd (mscale (nsub n1 (Fin r : NumX)) pq) (mscale (Fin r : NumX) scatter)) ;;
        slot_assign pq new) (map (fm p p) Fs) sgs =
  Ok (map (fm p p) (zipw (fun (F : rmat) (sg : Z * Z) => fun i j => avg r nb n (F i j) (leg (fst sg) (c i) * leg (snd sg) (c j))) Fs sgs)).
Proof.
  revert sgs. induction Fs as [|F Fs IH]; intros [|sg sgs] H; try discriminate; [reflexivity|].
  cbn [map zipM zipw]. rewrite !pm_leg_fin, outer_fin. cbv zeta.
  change (Nat.leb (S n) nb) with (Nat.ltb n nb) at 1.
  rewrite (mavg_fin p r nb n F (fun i j => leg (fst sg) (c i) * leg (snd sg) (c j))). cbn [bind]. rewrite slot_assign_fin. cbn [bind].
  rewrite IH by (now injection H). reflexivity.
Qed.
Lemma pm_update_fin p r nb a x : length (pq a) = 4%nat ->
  pm_update (pm_d p r nb a) (fv p x) = Ok (pm_d p r nb (pm_step r nb a x)).
Proof.
  intros H4. unfold pm_update, pm_d. rd. rewrite vsub_fin. cbn [bind].
  pose proof (pm_quads_fin p r nb (pn a) (fun i => x i - pm_ a i) (pq a) QUADRANTS H4) as Q. cbv zeta in Q.
  unfold pm_step. cbn [pn pm_ pq].
  assert (M : (if Nat.leb (S (pn a)) nb then vadd (fv p (pm_ a)) (vdivs (fv p (fun i => x i - pm_ a i)) (nofn (S (pn a))))
     else vadd (vscale (nsub n1 (Fin r : NumX)) (fv p (pm_ a))) (vscale (Fin r : NumX) (fv p x))) = Ok (fv p (fun i => avg r nb (pn a) (pm_ a i) (x i)))).
  { rewrite <- (vavg_fin p r nb (pn a) (pm_ a) x). rewrite vsub_fin. reflexivity. }
  rewrite M. cbn [bind]. rewrite Q. reflexivity.
Qed.
Definition p_init (p : nat) : pst := mkP 0 (fun _ => 0) (map (fun _ => fun _ _ => 0) QUADRANTS).
(** average of one quadrant's scatter, and of the whole outer product *)
Definition quad_avg (r : R) (nb : nat) (sg : Z * Z) (xs : list obs) (i j : nat) : R :=
  rw_avg r nb (fun pre x => leg (fst sg) (dev r nb pre x i) * leg (snd sg) (dev r nb pre x j)) xs.
Definition dev_cov (r : R) (nb : nat) (xs : list obs) (i j : nat) : R :=
  rw_avg r nb (fun pre x => dev r nb pre x i * dev r nb pre x j) xs.
Lemma pm_fold p r nb xs : let a := fold_left (pm_step r nb) xs (p_init p) in
  pn a = length xs /\ (forall i, pm_ a i = ewa_mean r nb xs i) /\
  exists A B C D, pq a = [A; B; C; D] /\
    (forall i j, A i j = quad_avg r nb (1, 1)%Z xs i j) /\ (forall i j, B i j = quad_avg r nb (-1, 1)%Z xs i j) /\
    (forall i j, C i j = quad_avg r nb (1, -1)%Z xs i j) /\ (forall i j, D i j = quad_avg r nb (-1, -1)%Z xs i j).
Proof.
  cbv zeta. induction xs as [|x xs IH] using rev_ind.
  - simpl. split; auto. split; [intros; now rewrite ewa_mean_nil|].
    exists (fun _ _ => 0), (fun _ _ => 0), (fun _ _ => 0), (fun _ _ => 0). unfold quad_avg.
    repeat split; intros; now rewrite rw_avg_nil.
  - destruct IH as (I1 & I2 & A & B & C & D & E & IA & IB & IC & ID). rewrite fold_left_app. cbn [fold_left].
    set (a := fold_left (pm_step r nb) xs (p_init p)) in *. unfold pm_step. cbn [pn pm_ pq].
    rewrite app_length, I1, E. cbn [length zipw QUADRANTS fst snd]. split; [lia|]. split.
    + intros i. now rewrite ewa_mean_step, I2.
    + do 4 eexists. split; [reflexivity|]. unfold quad_avg in *.
      repeat split; intros i j; rewrite rw_avg_step, !I2; cbn [fst snd];
        first [rewrite IA|rewrite IB|rewrite IC|rewrite ID]; reflexivity.
Qed.
Lemma quads_total r nb xs i j :
  quad_avg r nb (1, 1)%Z xs i j + quad_avg r nb (-1, 1)%Z xs i j + quad_avg r nb (1, -1)%Z xs i j
  + quad_avg r nb (-1, -1)%Z xs i j = dev_cov r nb xs i j.
Proof.
  unfold quad_avg, dev_cov. cbn [fst snd]. rewrite <- !rw_avg_plus. apply rw_avg_ext. intros. apply legs_sum.
Qed.
Lemma pm_pair L fuel r : diff_pair (PartialMoments L fuel) (mkEwaP (N := NumX) (Fin r)).
Proof. split; [reflexivity|]. repeat split; intros; try reflexivity; try discriminate. Qed.
Lemma PartialMoments_run L fuel p r diff rows xs : r <> 0 -> observes p diff rows xs -> xs <> [] ->
  exists o, partial_fit (new (C := PartialMoments L fuel) (mkEwaP (N := NumX) (Fin r) diff)) (In2 rows) = (o, Ok tt) /\
    n_samples_ o = Ok (length xs) /\
    location_ o = Ok (fv p (ewa_mean r (burn_len r) xs)) /\
    covariance_ o = (c <- nearest_pos_def L fuel (fm p p (dev_cov r (burn_len r) xs)) ;; to_symmetric c) /\
    correlation_ o = (c <- covariance_ o ;; cov_to_corrcoef c).
Proof.
  intros Hr Ho Hx. destruct (length_S xs Hx) as (n & Hn).
  pose proof (pm_fold p r (burn_len r) xs) as E. cbv zeta in E.
  destruct E as (E1 & E2 & A & B & C & D & E3 & EA & EB & EC & ED).
  destruct (run_reads (C := PartialMoments L fuel) (mkEwaP (N := NumX) (Fin r)) (pm_pair L fuel r) (pm_d p r (burn_len r)) (pm_step r (burn_len r))
             (fun a => length (pq a) = 4%nat) p (p_init p)) with (xs := xs) (diff := diff) (rows := rows) (n := n)
    as (o & R1 & R2 & R3 & R4 & R5 & R6 & _); auto.
  - cbn [c_init PartialMoments dict_class]. unfold pm_init. cbn [ewa_r]. rewrite burn_fin by auto. reflexivity.
  - intros st x H4. split; [cbn [c_update PartialMoments dict_class]; now apply pm_update_fin|].
    unfold pm_step. cbn [pq]. destruct (pq st) as [|? [|? [|? [|? [|? ?]]]]]; try discriminate. reflexivity.
  - cbn. unfold dict_nsamples, pm_d. rd. now rewrite E1, Hn.
  - exists o. split; [exact R1|]. rewrite Hn. split; [exact R2|]. split; [|split; [|exact R5]].
    + rewrite R3. cbn [c_mean PartialMoments dict_class]. unfold dict_mean, pm_d. rd. f_equal. now apply fv_ext.
    + rewrite R4. cbn [c_cov PartialMoments dict_class]. unfold pm_cov, pm_d. rd. rewrite E3. cbn [map sum_axis0 foldM].
      rewrite madd_fin. cbn [bind]. rewrite madd_fin. cbn [bind]. rewrite madd_fin. cbn [bind].
      rewrite (fm_ext p p _ (dev_cov r (burn_len r) xs)).
      * rewrite to_symmetric_sym_fin by apply sym_rw. reflexivity.
      * intros i j _ _. rewrite EA, EB, EC, ED. apply quads_total.
Qed.
Lemma psd_dev_cov n r nb xs : 0 <= r <= 1 -> psd n (dev_cov r nb xs).
Proof.
  intros Hr. apply (psd_rw_avg n r nb (fun pre x i j => dev r nb pre x i * dev r nb pre x j)); auto.
  intros. apply psd_outer.
Qed.

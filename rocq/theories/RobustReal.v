(** * Huber, AdaptiveEwa, Geodesic, Tyler on finite streams, lawful LAPACK (proof infrastructure) *)
From Coq Require Import Reals ZArith String List Lia Lra Arith Bool.
From Verif Require Import Num Numpy PyVal LinalgModel StateModel BaseModel Estimators
  Spec ListLemmas BaseProofs RMat LinSpec Fin RealSpec RunFin EwaReal RunAvg EmpFacts Spectral MatAlg Contracts LinalgReal.
Import ListNotations.
Local Open Scope string_scope.
Local Open Scope R_scope.

Definition dv (a : ast) (x : obs) : obs := fun i => x i - am a i.
Lemma psd_emp_step p a x : psd p (aC a) -> psd p (aC (emp_step a x)).
Proof.
  intros H. unfold emp_step. cbn [aC]. set (n := an a).
  assert (N : 0 < INR (S n)) by (apply lt_0_INR; lia).
  apply (psd_ext p (fun i j => INR n / INR (S n) * aC a i j + (1 - / INR (S n)) / INR (S n) * (dv a x i * dv a x j))).
  - intros i j _ _. unfold dv. field. lra.
  - assert (I1 : / INR (S n) <= 1). { apply inv_S_range. }
    apply psd_plus; apply psd_scal; auto using psd_outer.
    + apply Rmult_le_pos; [apply pos_INR|left; now apply Rinv_0_lt_compat].
    + apply Rmult_le_pos; [lra|left; now apply Rinv_0_lt_compat].
Qed.
Lemma psd_ew_step p rho a x : 0 <= rho <= 1 -> psd p (aC a) -> psd p (aC (ew_step rho a x)).
Proof. intros Hr H. unfold ew_step. cbn [aC]. apply psd_plus; apply psd_scal; auto using psd_outer; lra. Qed.
Lemma psd_scaled p rho w a x : 0 <= rho <= 1 -> psd p (aC a) ->
  psd p (fun i j => (1 - rho) * aC a i j + rho * (w * dv a x i * (w * dv a x j))).
Proof. intros Hr H. apply psd_plus; apply psd_scal; auto; [lra|lra|]. exact (psd_outer p (fun i => w * dv a x i)). Qed.

(** maha2: dev @ inv @ dev *)
Lemma maha_fin p B d : (1 <= p)%nat ->
  (dp <- @vecmat NumX (fv p d) (fm p p B) ;; vdot dp (fv p d)) = Ok (Fin (qf p B d)).
Proof.
  intros Hp. rewrite vecmat_fin by auto. cbn [bind]. rewrite vdot_fin. f_equal. f_equal. unfold rdot, qf.
  rewrite (rsum_ext p _ (fun j => rsum p (fun i => d i * B i j * d j))) by (intros; now rewrite rsum_scal_r).
  apply rsum_swap.
Qed.

Section L.
  Context (L : LinAlg NumX) (HL : lawful L).

  (** ** Huber *)
  Definition HUB (r c : R) (diff : bool) : HubP (N := NumX) := mkHubP (N := NumX) (Fin r) (Fin c) diff.
  Definition maha2 (p : nat) (a : ast) (x : obs) : R := qf p (tinv L p (aC a)) (dv a x).
  Definition hub_w (p : nat) (c : R) (a : ast) (x : obs) : R :=
    if Rle_dec (maha2 p a x) (c * c * INR p) then 1 else sqrt (c * c * INR p / maha2 p a x).
  Definition hub_step (p : nat) (r c : R) (nb : nat) (a : ast) (x : obs) : ast :=
    if Nat.ltb (an a) nb then emp_step a x
    else let w := hub_w p c a x in
         mkA (S (an a)) (fun i => am a i + r * (w * dv a x i))
             (fun i j => (1 - r) * aC a i j + r * (w * dv a x i * (w * dv a x j))).
  Lemma thr_nonneg p c : 0 <= c * c * INR p.
  Proof. apply Rmult_le_pos; [apply Rle_0_sqr|apply pos_INR]. Qed.
  Lemma hub_update_fin p r c diff nb a x : (1 <= p)%nat -> psd p (aC a) ->
    hub_update L (HUB r c diff) (ewa_d p r nb a) (fv p x) = Ok (ewa_d p r nb (hub_step p r c nb a x)).
  Proof.
    intros Hp HP. unfold hub_update, ewa_d. unfold emp_d at 1 2 3. rd. unfold hub_step.
    destruct (Nat.ltb (an a) nb).
    - rewrite (emp_update_fin p _ a x) by reflexivity. reflexivity.
    - unfold emp_d at 1 2 3. rd. rewrite vsub_fin. cbn [bind].
      destruct (tinv_ok L HL p (aC a) Hp (proj1 HP)) as [-> _]. cbn [bind].
      pose proof (maha_fin p (tinv L p (aC a)) (dv a x) Hp) as M.
      change (fun i => x i - am a i) with (dv a x). destruct (vecmat (fv p (dv a x)) (fm p p (tinv L p (aC a)))) as [dp|]; [|discriminate M].
      cbn [bind] in *. rewrite M. cbn [bind]. fold (maha2 p a x). cbn [hub_c HUB]. rewrite nofn_fin, !mul_fin, leb_fin.
      set (w := hub_w p c a x).
      replace (if Rleb (maha2 p a x) (c * c * INR p) then Ok n1 else q <- py_div (Fin (c * c * INR p) : NumX) (Fin (maha2 p a x)) ;; Ok (nsqrt q))
        with (Ok (Fin w : NumX)).
      2:{ unfold w, hub_w, Rleb. pose proof (thr_nonneg p c). destruct (Rle_dec (maha2 p a x) (c * c * INR p)); [reflexivity|].
          rewrite py_div_fin by lra. cbn [bind]. rewrite sqrt_fin; [reflexivity|]. apply Rmult_le_pos; auto.
          left. apply Rinv_0_lt_compat. lra. }
      cbn [bind]. rewrite vscale_fin, vscale_fin, vadd_fin. cbn [bind].
      rewrite n1_fin, sub_fin, outer_fin, !mscale_fin, madd_fin. reflexivity.
  Qed.
  Lemma psd_hub_step p r c nb a x : 0 <= r <= 1 -> psd p (aC a) -> psd p (aC (hub_step p r c nb a x)).
  Proof.
    intros Hr H. unfold hub_step. destruct (Nat.ltb (an a) nb); [now apply psd_emp_step|]. now apply psd_scaled.
  Qed.
  Lemma hub_pair r c : diff_pair (Huber L) (HUB r c).
  Proof. split; [reflexivity|]. repeat split; intros; try reflexivity; try discriminate. Qed.
  Definition hub_st (p : nat) (r c : R) (xs : list obs) : ast := fold_left (hub_step p r c (burn_len r)) xs a_init.
  Lemma an_hub p r c xs : an (hub_st p r c xs) = length xs.
  Proof.
    unfold hub_st. induction xs as [|x xs IH] using rev_ind; [reflexivity|]. rewrite fold_left_app. cbn [fold_left].
    rewrite app_length. cbn [length]. unfold hub_step at 1. destruct (Nat.ltb _ _); cbn [an emp_step]; rewrite IH; lia.
  Qed.
  Lemma psd_hub p r c xs : 0 <= r <= 1 -> psd p (aC (hub_st p r c xs)).
  Proof.
    intros Hr. unfold hub_st. induction xs as [|x xs IH] using rev_ind; [exact (psd_zero p)|]. rewrite fold_left_app. cbn [fold_left].
    now apply psd_hub_step.
  Qed.
  Lemma Huber_run p r c diff rows xs : (1 <= p)%nat -> 0 < r <= 1 -> observes p diff rows xs -> xs <> [] ->
    let a := hub_st p r c xs in
    exists o, partial_fit (new (C := Huber L) (HUB r c diff)) (In2 rows) = (o, Ok tt) /\
      n_samples_ o = Ok (length xs) /\
      location_ o = Ok (fv p (am a)) /\ covariance_ o = Ok (fm p p (aC a)) /\
      correlation_ o = cov_to_corrcoef (fm p p (aC a)) /\
      (forall L', precision_ L' o = try_invert L' (fm p p (aC a))).
  Proof.
    intros Hp Hr Ho Hx a. destruct (length_S xs Hx) as (n & Hn). assert (r <> 0) by lra.
    destruct (run_reads (C := Huber L) (HUB r c) (hub_pair r c) (ewa_d p r (burn_len r)) (hub_step p r c (burn_len r)) (fun a => psd p (aC a)) p a_init)
      with (xs := xs) (diff := diff) (rows := rows) (n := n) as (o & R1 & R2 & R3 & R4 & R5 & R6 & _); auto.
    - cbn [c_init Huber dict_class]. now apply ewa_init_fin.
    - exact (psd_zero p).
    - intros b x HB. split; [|apply psd_hub_step; auto; lra]. cbn [c_update Huber dict_class]. now apply hub_update_fin.
    - cbn. unfold dict_nsamples, ewa_d, emp_d. rd. f_equal. change (an (hub_st p r c xs) = S n). now rewrite an_hub.
    - fold (hub_st p r c xs) in *. fold a in R3, R4. exists o. split; [exact R1|]. rewrite Hn. split; [exact R2|].
      assert (Cv : covariance_ o = Ok (fm p p (aC a))).
      { rewrite R4. cbn [c_cov Huber dict_class]. unfold dict_cov, ewa_d, emp_d. rd. apply to_symmetric_sym_fin. apply psd_hub. lra. }
      split; [rewrite R3; reflexivity|]. split; [exact Cv|]. split; [now rewrite R5, Cv|].
      intros L'. now rewrite (R6 L' eq_refl), Cv.
  Qed.

  (** ** AdaptiveEwa *)
  Definition ADA (r mx : R) (diff : bool) : AdaP (N := NumX) := mkAdaP (N := NumX) (Fin r) (Fin mx) diff.
  Record adst := mkAd { ad : ast; asb : R }.
  Definition ada_d (p : nat) (r mx : R) (nb : nat) (s : adst) : dict NumX :=
    (ewa_d p r nb (ad s) ++ [("max_r", VNum (Fin mx : NumX)); ("sbar", VNum (Fin (asb s) : NumX))])%list.
  Definition ada_sbar (p : nat) (s : adst) (x : obs) : R := (1 - 1 / 10) * asb s + 1 / 10 * (maha2 p (ad s) x / INR p).
  Definition ada_rate (r mx sbar : R) : R := Rmin (Rmax (r * sbar) r) mx.
  Definition ada_step (p : nat) (r mx : R) (nb : nat) (s : adst) (x : obs) : adst :=
    if Nat.ltb (an (ad s)) nb then mkAd (emp_step (ad s) x) (asb s)
    else let sb := ada_sbar p s x in mkAd (ew_step (ada_rate r mx sb) (ad s) x) sb.
  Definition ad_init : adst := mkAd a_init 1.
  Lemma DETECT_fin : @DETECT NumX = Fin (1 / 10).
  Proof. unfold DETECT. rewrite nlit_fin. f_equal. Qed.
  Lemma ada_update_fin p r mx nb s x : (1 <= p)%nat -> sym p (aC (ad s)) ->
    ada_update L (ada_d p r mx nb s) (fv p x) = Ok (ada_d p r mx nb (ada_step p r mx nb s x)).
  Proof.
    intros Hp HP. unfold ada_update, ada_d. unfold ewa_d at 1 2 3 4 5. unfold emp_d at 1 2 3 4 5. rd. unfold ada_step.
    destruct (Nat.ltb (an (ad s)) nb).
    - rewrite (emp_update_fin p _ (ad s) x) by reflexivity. reflexivity.
    - unfold ewa_d at 1 2 3. unfold emp_d at 1 2 3. rd. rewrite vsub_fin. cbn [bind].
      destruct (tinv_ok L HL p (aC (ad s)) Hp HP) as [-> _]. cbn [bind].
      pose proof (maha_fin p (tinv L p (aC (ad s))) (dv (ad s) x) Hp) as M.
      change (fun i => x i - am (ad s) i) with (dv (ad s) x). destruct (vecmat (fv p (dv (ad s) x)) (fm p p (tinv L p (aC (ad s))))) as [dp|]; [|discriminate M].
      cbn [bind] in *. rewrite M. cbn [bind]. fold (maha2 p (ad s) x).
      destruct (Nat.ltb_spec 0 p); [|lia]. rewrite nofn_fin, div_fin by (apply not_0_INR; lia).
      rewrite n1_fin, DETECT_fin, sub_fin, !mul_fin, add_fin. fold (ada_sbar p s x). rewrite mul_fin, py_max_fin, py_min_fin.
      fold (ada_rate r mx (ada_sbar p s x)). rewrite sub_fin, !vscale_fin, vadd_fin. cbn [bind].
      rewrite outer_fin, !mscale_fin, madd_fin. reflexivity.
  Qed.
  Lemma ada_pair r mx : diff_pair (Adaptive L) (ADA r mx).
  Proof. split; [reflexivity|]. repeat split; intros; try reflexivity; try discriminate. Qed.
  Definition ada_st (p : nat) (r mx : R) (xs : list obs) : adst := fold_left (ada_step p r mx (burn_len r)) xs ad_init.
  Lemma an_ada p r mx xs : an (ad (ada_st p r mx xs)) = length xs.
  Proof.
    unfold ada_st. induction xs as [|x xs IH] using rev_ind; [reflexivity|]. rewrite fold_left_app. cbn [fold_left].
    rewrite app_length. cbn [length]. unfold ada_step at 1. destruct (Nat.ltb _ _); cbn [ad an emp_step ew_step]; rewrite IH; lia.
  Qed.
  Lemma sym_emp_step p a x : sym p (aC a) -> sym p (aC (emp_step a x)).
  Proof. intros H i j Hi Hj. unfold emp_step. cbn [aC]. rewrite (H i j) by auto. field. auto. Qed.
  Lemma sym_ew_step p rho a x : sym p (aC a) -> sym p (aC (ew_step rho a x)).
  Proof. intros H i j Hi Hj. unfold ew_step. cbn [aC]. rewrite (H i j) by auto. ring. Qed.
  Lemma sym_ada_step p r mx nb s x : sym p (aC (ad s)) -> sym p (aC (ad (ada_step p r mx nb s x))).
  Proof. intros H. unfold ada_step. destruct (Nat.ltb _ _); cbn [ad]; auto using sym_emp_step, sym_ew_step. Qed.
  Lemma sym_ada p r mx xs : sym p (aC (ad (ada_st p r mx xs))).
  Proof.
    unfold ada_st. induction xs as [|x xs IH] using rev_ind; [intros i j _ _; reflexivity|]. rewrite fold_left_app. cbn [fold_left].
    now apply sym_ada_step.
  Qed.
  Lemma ada_rate_range r mx sb : r <= mx -> r <= ada_rate r mx sb <= mx.
  Proof.
    intros H. unfold ada_rate. split; [|apply Rmin_r]. apply Rmin_glb; auto. apply Rmax_r.
  Qed.
  Lemma psd_ada p r mx xs : 0 < r -> r <= mx -> mx <= 1 -> psd p (aC (ad (ada_st p r mx xs))).
  Proof.
    intros Hr Hm H1. unfold ada_st. induction xs as [|x xs IH] using rev_ind; [exact (psd_zero p)|]. rewrite fold_left_app. cbn [fold_left].
    unfold ada_step at 1. destruct (Nat.ltb _ _); cbn [ad]; [now apply psd_emp_step|]. apply psd_ew_step; auto.
    pose proof (ada_rate_range r mx (ada_sbar p (fold_left (ada_step p r mx (burn_len r)) xs ad_init) x) Hm). lra.
  Qed.
  Lemma Adaptive_run p r mx diff rows xs : (1 <= p)%nat -> r <> 0 -> observes p diff rows xs -> xs <> [] ->
    let a := ad (ada_st p r mx xs) in
    exists o, partial_fit (new (C := Adaptive L) (ADA r mx diff)) (In2 rows) = (o, Ok tt) /\
      n_samples_ o = Ok (length xs) /\
      location_ o = Ok (fv p (am a)) /\ covariance_ o = Ok (fm p p (aC a)) /\
      correlation_ o = cov_to_corrcoef (fm p p (aC a)) /\
      (forall L', precision_ L' o = try_invert L' (fm p p (aC a))).
  Proof.
    intros Hp Hr Ho Hx a. destruct (length_S xs Hx) as (n & Hn).
    destruct (run_reads (C := Adaptive L) (ADA r mx) (ada_pair r mx) (ada_d p r mx (burn_len r)) (ada_step p r mx (burn_len r)) (fun s => sym p (aC (ad s))) p ad_init)
      with (xs := xs) (diff := diff) (rows := rows) (n := n) as (o & R1 & R2 & R3 & R4 & R5 & R6 & _); auto.
    - cbn [c_init Adaptive dict_class]. unfold ada_init. cbn [ada_r ADA]. rewrite ewa_init_fin by auto. reflexivity.
    - intros i j _ _. reflexivity.
    - intros b x HB. split; [|now apply sym_ada_step]. cbn [c_update Adaptive dict_class]. now apply ada_update_fin.
    - cbn. unfold dict_nsamples, ada_d, ewa_d, emp_d. rd. f_equal. change (an (ad (ada_st p r mx xs)) = S n). now rewrite an_ada.
    - fold (ada_st p r mx xs) in *. exists o. split; [exact R1|]. rewrite Hn. split; [exact R2|].
      assert (Cv : covariance_ o = Ok (fm p p (aC a))).
      { rewrite R4. cbn [c_cov Adaptive dict_class]. unfold dict_cov, ada_d, ewa_d, emp_d. rd. apply to_symmetric_sym_fin. apply sym_ada. }
      split; [rewrite R3; reflexivity|]. split; [exact Cv|]. split; [now rewrite R5, Cv|].
      intros L'. now rewrite (R6 L' eq_refl), Cv.
  Qed.

  (** ** GeodesicEwa *)
  Definition geo_step (p : nat) (r : R) (nb : nat) (a : ast) (x : obs) : ast :=
    if Nat.ltb (an a) nb then emp_step a x
    else mkA (S (an a)) (fun i => (1 - r) * am a i + r * x i) (gstep L p (aC a) (fun i j => dv a x i * dv a x j) r).
  Lemma geo_update_fin p r nb a x : (1 <= p)%nat ->
    geo_update L (ewa_d p r nb a) (fv p x) = Ok (ewa_d p r nb (geo_step p r nb a x)).
  Proof.
    intros Hp. unfold geo_update, ewa_d. unfold emp_d at 1 2 3. rd. unfold geo_step.
    destruct (Nat.ltb (an a) nb).
    - rewrite (emp_update_fin p _ a x) by reflexivity. reflexivity.
    - unfold emp_d at 1 2 3. rd. rewrite vsub_fin. cbn [bind]. rewrite n1_fin, sub_fin, !vscale_fin, vadd_fin. cbn [bind].
      change (fun i => x i - am a i) with (dv a x). rewrite outer_fin.
      destruct (gstep_ok L HL p (aC a) (fun i j => dv a x i * dv a x j) r Hp) as [-> _]. reflexivity.
  Qed.
  Lemma psd_geo_step p r nb a x : (1 <= p)%nat -> psd p (aC a) -> psd p (aC (geo_step p r nb a x)).
  Proof.
    intros Hp H. unfold geo_step. destruct (Nat.ltb (an a) nb); [now apply psd_emp_step|]. cbn [aC]. apply pd_psd. now apply gstep_ok.
  Qed.
  Lemma geo_pair r : diff_pair (Geodesic L) (mkEwaP (N := NumX) (Fin r)).
  Proof. split; [reflexivity|]. repeat split; intros; try reflexivity; try discriminate. Qed.
  Definition geo_st (p : nat) (r : R) (xs : list obs) : ast := fold_left (geo_step p r (burn_len r)) xs a_init.
  Lemma an_geo p r xs : an (geo_st p r xs) = length xs.
  Proof.
    unfold geo_st. induction xs as [|x xs IH] using rev_ind; [reflexivity|]. rewrite fold_left_app. cbn [fold_left].
    rewrite app_length. cbn [length]. unfold geo_step at 1. destruct (Nat.ltb _ _); cbn [an emp_step]; rewrite IH; lia.
  Qed.
  Lemma psd_geo p r xs : (1 <= p)%nat -> psd p (aC (geo_st p r xs)).
  Proof.
    intros Hp. unfold geo_st. induction xs as [|x xs IH] using rev_ind; [exact (psd_zero p)|]. rewrite fold_left_app. cbn [fold_left].
    now apply psd_geo_step.
  Qed.
  Lemma Geodesic_run p r diff rows xs : (1 <= p)%nat -> r <> 0 -> observes p diff rows xs -> xs <> [] ->
    let a := geo_st p r xs in
    exists o, partial_fit (new (C := Geodesic L) (mkEwaP (N := NumX) (Fin r) diff)) (In2 rows) = (o, Ok tt) /\
      n_samples_ o = Ok (length xs) /\
      location_ o = Ok (fv p (am a)) /\ covariance_ o = Ok (fm p p (aC a)) /\
      correlation_ o = cov_to_corrcoef (fm p p (aC a)) /\
      (forall L', precision_ L' o = try_invert L' (fm p p (aC a))).
  Proof.
    intros Hp Hr Ho Hx a. destruct (length_S xs Hx) as (n & Hn).
    destruct (run_reads (C := Geodesic L) (mkEwaP (N := NumX) (Fin r)) (geo_pair r) (ewa_d p r (burn_len r)) (geo_step p r (burn_len r)) (fun a => True) p a_init)
      with (xs := xs) (diff := diff) (rows := rows) (n := n) as (o & R1 & R2 & R3 & R4 & R5 & R6 & _); auto.
    - cbn [c_init Geodesic dict_class]. now apply ewa_init_fin.
    - intros b x HB. split; auto. cbn [c_update Geodesic dict_class]. now apply geo_update_fin.
    - cbn. unfold dict_nsamples, ewa_d, emp_d. rd. f_equal. change (an (geo_st p r xs) = S n). now rewrite an_geo.
    - fold (geo_st p r xs) in *. exists o. split; [exact R1|]. rewrite Hn. split; [exact R2|].
      assert (Cv : covariance_ o = Ok (fm p p (aC a))).
      { rewrite R4. cbn [c_cov Geodesic dict_class]. unfold dict_cov, ewa_d, emp_d. rd. apply to_symmetric_sym_fin. now apply psd_geo. }
      split; [rewrite R3; reflexivity|]. split; [exact Cv|]. split; [now rewrite R5, Cv|].
      intros L'. now rewrite (R6 L' eq_refl), Cv.
  Qed.
End L.

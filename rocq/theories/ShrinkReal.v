(** * LedoitWolf, OAS and Shrunk on finite streams *)
From Coq Require Import Reals ZArith String List Lia Lra Arith Bool.
From Verif Require Import Num Numpy PyVal LinalgModel StateModel BaseModel Estimators
  Spec ListLemmas BaseProofs RMat Fin RealSpec RunFin EwaReal RunAvg EmpFacts.
Import ListNotations.
Local Open Scope string_scope.
Local Open Scope R_scope.

(** ** Boolean-mask selection *)
Lemma vsum_app (a b : vec NumX) x y : vsum a = Fin x -> vsum b = Fin y -> vsum (a ++ b)%list = Fin (x + y).
Proof.
  unfold vsum. intros Ha Hb. rewrite fold_left_app, Ha.
  assert (K : forall l u s t, fold_left (@nadd NumX) l (Fin s) = Fin u -> fold_left (@nadd NumX) l (Fin (t + s)) = Fin (t + u)).
  { clear. induction l as [|z l IH]; intros u s t H; cbn [fold_left] in *.
    - injection H as ->. reflexivity.
    - destruct z as [z| | |]; cbn in H.
      + rewrite add_fin. replace (t + s + z) with (t + (s + z)) by ring. now apply IH.
      + exfalso. clear IH. revert H. assert (G : forall l, fold_left xadd l PInf = PInf \/ fold_left xadd l PInf = NaN).
        { clear. intros l. assert (fold_left xadd l NaN = NaN) as N by (induction l as [|[]]; auto).
          induction l as [|[]]; cbn; auto. }
        destruct (G l) as [E|E]; intros H; [change (fold_left xadd l PInf = Fin u) in H|change (fold_left xadd l PInf = Fin u) in H]; rewrite E in H; discriminate.
      + exfalso. clear IH. revert H. assert (G : forall l, fold_left xadd l NInf = NInf \/ fold_left xadd l NInf = NaN).
        { clear. intros l. assert (fold_left xadd l NaN = NaN) as N by (induction l as [|[]]; auto).
          induction l as [|[]]; cbn; auto. }
        destruct (G l) as [E|E]; intros H; change (fold_left xadd l NInf = Fin u) in H; rewrite E in H; discriminate.
      + exfalso. revert H. assert (G : forall l, fold_left xadd l NaN = NaN) by (clear; induction l as [|[]]; auto).
        intros H. change (fold_left xadd l NaN = Fin u) in H. rewrite G in H. discriminate. }
  specialize (K b y 0 x Hb). rewrite Rplus_0_r in K. exact K.
Qed.
Definition msk (p : nat) (mask : nat -> nat -> bool) (F : rmat) : R :=
  rsum p (fun i => rsum p (fun j => if mask i j then F i j else 0)).
Lemma flat_map_seq_S {A} (f : nat -> list A) p : flat_map f (seq 0 (S p)) = (flat_map f (seq 0 p) ++ f p)%list.
Proof. rewrite seq_S, flat_map_app. cbn [flat_map]. now rewrite app_nil_r. Qed.
Lemma vsum_flat (f : nat -> vec NumX) (g : nat -> R) p : (forall i, (i < p)%nat -> vsum (f i) = Fin (g i)) ->
  vsum (flat_map f (seq 0 p)) = Fin (rsum p g).
Proof.
  induction p; intros H; [reflexivity|]. rewrite flat_map_seq_S. cbn [rsum]. apply vsum_app; auto.
Qed.
Lemma masked_vsum p mask F : vsum (masked p mask (fm p p F)) = Fin (msk p mask F).
Proof.
  unfold masked, msk. apply vsum_flat. intros i Hi. apply vsum_flat. intros j Hj.
  rewrite fm_get by auto. destruct (mask i j); [|reflexivity].
  cbn. f_equal. ring.
Qed.
Lemma masked_map p mask F (h : NumX -> NumX) G : (forall i j, (i < p)%nat -> (j < p)%nat -> h (Fin (F i j)) = Fin (G i j)) ->
  map h (masked p mask (fm p p F)) = masked p mask (fm p p G).
Proof.
  intros H. unfold masked.
  assert (K : forall (f g : nat -> list NumX) l, (forall i, In i l -> map h (f i) = g i) ->
             map h (flat_map f l) = flat_map g l).
  { clear. intros f g l. induction l; intros H; cbn [flat_map]; auto. rewrite map_app, IHl, H; auto with datatypes. }
  apply K. intros i Hi. apply K. intros j Hj. apply in_seq in Hi, Hj. rewrite !fm_get by lia.
  destruct (mask i j); cbn [map]; auto. rewrite H by lia. reflexivity.
Qed.
Lemma flat_length {A} (f : nat -> list A) (g : nat -> R) p : (forall i, (i < p)%nat -> INR (length (f i)) = g i) ->
  INR (length (flat_map f (seq 0 p))) = rsum p g.
Proof.
  induction p; intros H; [reflexivity|]. rewrite flat_map_seq_S, app_length, plus_INR. cbn [rsum].
  rewrite IHp, H; auto.
Qed.
Lemma masked_len p mask (a : mat NumX) : INR (length (masked p mask a)) = msk p mask (fun _ _ => 1).
Proof.
  unfold masked, msk. apply flat_length. intros i Hi. apply flat_length. intros j Hj. destruct (mask i j); reflexivity.
Qed.
Lemma masked_nil p mask (a : mat NumX) : masked p mask a = [] <-> forall i j, (i < p)%nat -> (j < p)%nat -> mask i j = false.
Proof.
  unfold masked. split.
  - intros H i j Hi Hj. destruct (mask i j) eqn:E; auto. exfalso.
    assert (K : In (mget a i j) []); [|destruct K]. rewrite <- H.
    apply in_flat_map. exists i. split; [apply in_seq; lia|]. apply in_flat_map. exists j.
    split; [apply in_seq; lia|]. rewrite E. now left.
  - intros H. assert (K : forall {A} (f : nat -> list A) l, (forall i, In i l -> f i = []) -> flat_map f l = []).
    { clear. intros A f l. induction l; intros H; cbn [flat_map]; auto. rewrite H, IHl; auto with datatypes. }
    apply K. intros i Hi. apply K. intros j Hj. apply in_seq in Hi, Hj. rewrite H by lia. reflexivity.
Qed.
Lemma check_shape_fin p F : check_shape (N := NumX) p (fm p p F) = Ok tt.
Proof.
  unfold check_shape. rewrite fm_nrows, Nat.eqb_refl. cbn [andb].
  replace (forallb _ (fm p p F)) with true; auto. symmetry. apply forallb_forall. intros r Hr.
  apply Nat.eqb_eq. destruct (fm_mat p p F) as [_ H]. rewrite Forall_forall in H. now apply H.
Qed.
Lemma offdiag_mask p F : msk p (fun i j => negb (Nat.eqb i j)) F = rsum p (fun i => rsum p (F i)) - rtrace p F.
Proof.
  unfold msk, rtrace. rewrite <- rsum_minus. apply rsum_ext. intros i Hi.
  rewrite <- (rsum_delta' p i (F i)) by auto. rewrite <- rsum_minus. apply rsum_ext. intros j _.
  destruct (Nat.eqb i j); simpl; ring.
Qed.

(** ** Convex shrinkage towards the scaled identity *)
Definition shrinkI (p : nat) (a : R) (S : rmat) : rmat :=
  fun i j => (1 - a) * S i j + a * (rtrace p S / INR p) * rI i j.
Lemma rtrace_rI p : rtrace p rI = INR p.
Proof.
  unfold rtrace, rI. rewrite (rsum_ext p _ (fun _ => 1)); [rewrite rsum_const; ring|]. intros. now rewrite Nat.eqb_refl.
Qed.
Lemma shrinkI_trace p a S : (1 <= p)%nat -> rtrace p (shrinkI p a S) = rtrace p S.
Proof.
  intros Hp. unfold shrinkI, rtrace at 1. rewrite rsum_plus, !rsum_scal. fold (rtrace p S). fold (rtrace p rI).
  rewrite rtrace_rI. field. apply not_0_INR. lia.
Qed.
Lemma shrinkI_psd p a S : (1 <= p)%nat -> 0 <= a <= 1 -> psd p S -> psd p (shrinkI p a S).
Proof.
  intros Hp Ha HS. apply psd_plus; apply psd_scal; auto using psd_I; [lra|].
  apply Rmult_le_pos; [lra|]. apply Rmult_le_pos.
  - apply rsum_nonneg. intros. eapply psd_diag_nonneg; eauto.
  - left. apply Rinv_0_lt_compat, lt_0_INR. lia.
Qed.
Lemma rI_sym i j : rI i j = rI j i.
Proof. unfold rI. now rewrite Nat.eqb_sym. Qed.
Lemma shrinkI_sym p n a S : sym n S -> sym n (shrinkI p a S).
Proof. intros H i j Hi Hj. unfold shrinkI. rewrite (H i j Hi Hj), (rI_sym i j). reflexivity. Qed.
Lemma INR_nz p : (1 <= p)%nat -> INR p <> 0.
Proof. intros. apply not_0_INR. lia. Qed.

(** ** LedoitWolf *)
Record lst := mkL { la_ : ast; lpi : R }.
Definition lw_d (p : nat) (r : R) (nb : nat) (a : lst) : dict NumX :=
  (ewa_d p r nb (la_ a) ++ [("pi_bar", VNum (Fin (lpi a) : NumX))])%list.
Definition lw_q (p : nat) (m : obs) (C : rmat) (x : obs) : R :=
  fro2 p (fun i j => (x i - m i) * (x j - m j) - C i j) / INR p.
Definition lw_step (p : nat) (r : R) (nb : nat) (a : lst) (x : obs) : lst :=
  mkL (ewa_step r nb (la_ a) x)
      (if Nat.ltb (an (la_ a)) nb then lpi a
       else (1 - r) * lpi a + r * lw_q p (am (la_ a)) (aC (la_ a)) x).

Lemma lw_update_fin p r nb a x : (1 <= p)%nat ->
  lw_update (lw_d p r nb a) (fv p x) = Ok (lw_d p r nb (lw_step p r nb a x)).
Proof.
  intros Hp. unfold lw_update, lw_d, lw_step, ewa_d. unfold emp_d at 1 2 3 4. rd. unfold ewa_step. cbn [la_ lpi].
  destruct (Nat.ltb (an (la_ a)) nb).
  - rewrite (emp_update_fin p _ (la_ a) x) by reflexivity. reflexivity.
  - unfold emp_d. rd. rewrite vsub_fin. cbn [bind]. rewrite outer_fin, msub_fin. cbn [bind].
    rewrite n1_fin, sub_fin, !vscale_fin, vadd_fin. cbn [bind]. rewrite !mscale_fin, madd_fin. cbn [bind].
    rewrite (mmap_fin p p _ _ (fun i j => ((x i - am (la_ a) i) * (x j - am (la_ a) j) - aC (la_ a) i j) *
                                ((x i - am (la_ a) i) * (x j - am (la_ a) j) - aC (la_ a) i j))) by reflexivity.
    rewrite msum_fin, nofn_fin, div_fin by (now apply INR_nz). rewrite !mul_fin, add_fin. reflexivity.
Qed.
(** The dispersion statistic: EWMA of |d d^T - S|^2 / p after the burn-in. *)
Definition lw_stat (p : nat) (r : R) (nb : nat) (pre : list obs) (x : obs) : R :=
  lw_q p (ewa_mean r nb pre) (ewa_cov r nb pre) x.
Definition l_init : lst := mkL a_init 0.
Lemma fro2_ext p A B : meq p p A B -> fro2 p A = fro2 p B.
Proof. intros H. unfold fro2. apply rsum_ext. intros. apply rsum_ext. intros. now rewrite H. Qed.
Lemma fro2_nonneg p A : 0 <= fro2 p A.
Proof. unfold fro2. apply rsum_nonneg. intros. apply rsum_nonneg. intros. apply Rle_0_sqr. Qed.
Lemma lw_fold p r nb xs : let a := fold_left (lw_step p r nb) xs l_init in
  la_ a = fold_left (ewa_step r nb) xs a_init /\ lpi a = ewsum r nb (lw_stat p r nb) xs.
Proof.
  cbv zeta. induction xs as [|x xs [I1 I2]] using rev_ind.
  - split; [reflexivity|]. unfold ewsum. reflexivity.
  - rewrite !fold_left_app. cbn [fold_left]. set (a := fold_left (lw_step p r nb) xs l_init) in *.
    unfold lw_step at 1 2. cbn [la_ lpi]. split; [now rewrite I1|].
    pose proof (ewa_fold r nb xs) as E. cbv zeta in E. rewrite <- I1 in E. destruct E as (E1 & E2 & E3).
    rewrite ewsum_snoc, E1, I2. destruct (Nat.ltb (length xs) nb); auto.
    unfold lw_stat, lw_q. do 3 f_equal. apply fro2_ext. intros i j _ _. now rewrite !E2, E3.
Qed.
(** distance of S from the scaled identity: |S - (tr S/p) I|^2 / p *)
Definition disp (p : nat) (S : rmat) : R := fro2 p (fun i j => S i j - rtrace p S / INR p * rI i j) / INR p.
Definition lw_intensity (p : nat) (r pi : R) (S : rmat) : R :=
  if Rleb (disp p S) 0 || Rleb pi 0 then 0 else rclip (Rmin (pi * r) (disp p S) / disp p S) 0 1.
Lemma lw_cov_fin p r nb a : (1 <= p)%nat ->
  lw_cov (lw_d p r nb a) = Ok (fm p p (shrinkI p (lw_intensity p r (lpi a) (aC (la_ a))) (aC (la_ a)))).
Proof.
  intros Hp. unfold lw_cov, lw_d, ewa_d, emp_d. rd. set (S := aC (la_ a)).
  rewrite mtrace_fin, nofn_fin, div_fin by (now apply INR_nz).
  rewrite meye_fin, mscale_fin, msub_fin. cbn [bind].
  rewrite (mmap_fin p p _ _ (fun i j => (S i j - rtrace p S / INR p * rI i j) * (S i j - rtrace p S / INR p * rI i j))) by reflexivity.
  rewrite msum_fin, div_fin by (now apply INR_nz).
  change (rsum p (fun i => rsum p (fun j => (S i j - rtrace p S / INR p * rI i j) * (S i j - rtrace p S / INR p * rI i j))) / INR p) with (disp p S).
  rewrite n0_fin, !leb_fin. unfold lw_intensity.
  destruct (Rleb_spec (disp p S) 0); cbn [orb].
  - f_equal. apply fm_ext. intros. unfold shrinkI. ring.
  - destruct (Rleb_spec (lpi a) 0).
    + f_equal. apply fm_ext. intros. unfold shrinkI. ring.
    + rewrite mul_fin, py_min_fin, div_fin by lra. rewrite n1_fin, np_clip_fin, sub_fin, !mul_fin, !mscale_fin, madd_fin.
      reflexivity.
Qed.
Lemma lw_pair r : diff_pair LedoitWolf (mkEwaP (N := NumX) (Fin r)).
Proof. split; [reflexivity|]. repeat split; intros; try reflexivity; try discriminate. Qed.
Lemma LedoitWolf_run p r diff rows xs : (1 <= p)%nat -> r <> 0 -> observes p diff rows xs -> xs <> [] ->
  let S := ewa_cov r (burn_len r) xs in
  let a := lw_intensity p r (ewsum r (burn_len r) (lw_stat p r (burn_len r)) xs) S in
  exists o, partial_fit (new (C := LedoitWolf) (mkEwaP (N := NumX) (Fin r) diff)) (In2 rows) = (o, Ok tt) /\
    n_samples_ o = Ok (length xs) /\
    location_ o = Ok (fv p (ewa_mean r (burn_len r) xs)) /\
    covariance_ o = Ok (fm p p (shrinkI p a S)) /\
    correlation_ o = cov_to_corrcoef (fm p p (shrinkI p a S)).
Proof.
  intros Hp Hr Ho Hx S a. destruct (length_S xs Hx) as (n & Hn).
  pose proof (lw_fold p r (burn_len r) xs) as E. cbv zeta in E. destruct E as (E1 & E2).
  pose proof (ewa_fold r (burn_len r) xs) as F. cbv zeta in F. rewrite <- E1 in F. destruct F as (F1 & F2 & F3).
  destruct (run_reads (C := LedoitWolf) (mkEwaP (N := NumX) (Fin r)) (lw_pair r) (lw_d p r (burn_len r)) (lw_step p r (burn_len r))
             (fun _ => True) p l_init) with (xs := xs) (diff := diff) (rows := rows) (n := n)
    as (o & R1 & R2 & R3 & R4 & R5 & R6 & _); auto.
  - cbn [c_init LedoitWolf dict_class]. unfold lw_init. cbn [ewa_r]. rewrite ewa_init_fin by auto. reflexivity.
  - intros st x _. split; auto. cbn [c_update LedoitWolf dict_class]. now apply lw_update_fin.
  - cbn. unfold dict_nsamples, lw_d, ewa_d, emp_d. rd. now rewrite F1, Hn.
  - set (st := fold_left (lw_step p r (burn_len r)) xs l_init) in *.
    exists o. split; [exact R1|]. rewrite Hn. split; [exact R2|].
    assert (Cv : covariance_ o = Ok (fm p p (shrinkI p a S))).
    { rewrite R4. cbn [c_cov LedoitWolf dict_class]. rewrite lw_cov_fin by auto. cbn [bind].
      rewrite (fm_ext p p _ (shrinkI p a S)).
      - apply to_symmetric_sym_fin. apply shrinkI_sym. apply sym_ewa_cov.
      - assert (T : rtrace p (aC (la_ st)) = rtrace p S) by (apply rsum_ext; intros; apply F3).
        assert (D : disp p (aC (la_ st)) = disp p S).
        { unfold disp. f_equal. apply fro2_ext. intros i j _ _. now rewrite F3, T. }
        intros i j _ _. unfold shrinkI. rewrite T, F3. unfold a, lw_intensity. now rewrite D, E2. }
    split; [|split; [exact Cv|]].
    + rewrite R3. cbn [c_mean LedoitWolf dict_class]. unfold dict_mean, lw_d, ewa_d, emp_d. rd. f_equal. now apply fv_ext.
    + rewrite R5, Cv. reflexivity.
Qed.
Lemma lw_intensity_range p r pi S : 0 <= lw_intensity p r pi S <= 1.
Proof. unfold lw_intensity. destruct (_ || _); [lra|]. apply rclip_bounds. lra. Qed.

(** ** Classes that add a read-out to the EWA state *)
Lemma ewa_readout (C : EstClass NumX) (mk : bool -> c_P C) p r diff rows xs (F : rmat) (HD : diff_pair C mk)
   (emb : dict NumX -> c_St C) :
  c_init C (mk false) p = Ok (emb (ewa_d p r (burn_len r) a_init)) ->
  (forall a x, c_update C (mk false) (emb (ewa_d p r (burn_len r) a)) (fv p x) =
               Ok (emb (ewa_d p r (burn_len r) (ewa_step r (burn_len r) a x)))) ->
  (forall a, c_nsamples C (emb (ewa_d p r (burn_len r) a)) = Ok (an a)) ->
  (forall a, c_mean C (mk false) (emb (ewa_d p r (burn_len r) a)) = Ok (fv p (am a))) ->
  c_cov C (mk false) (emb (ewa_d p r (burn_len r) (mkA (length xs) (ewa_mean r (burn_len r) xs) (ewa_cov r (burn_len r) xs))))
    = Ok (fm p p F) ->
  sym p F ->
  observes p diff rows xs -> xs <> [] ->
  exists o, partial_fit (new (mk diff)) (In2 rows) = (o, Ok tt) /\
    n_samples_ o = Ok (length xs) /\
    location_ o = Ok (fv p (ewa_mean r (burn_len r) xs)) /\
    covariance_ o = Ok (fm p p F) /\
    correlation_ o = cov_to_corrcoef (fm p p F).
Proof.
  intros Hi Hu Hc Hm Hv HF Ho Hx.
  destruct (ewa_like_run C mk p r diff rows xs HD emb Hi Hu Hc Ho Hx) as (o & R1 & R2 & R3 & R4 & R5 & R6).
  exists o. split; [exact R1|]. split; [exact R2|].
  assert (Cv : covariance_ o = Ok (fm p p F)).
  { rewrite R4, Hv. cbn [bind]. now apply to_symmetric_sym_fin. }
  split; [now rewrite R3, Hm|]. split; [exact Cv|]. now rewrite R5, Cv.
Qed.

(** ** OAS *)
Definition oas_num (p : nat) (S : rmat) : R :=
  (1 - 2 / INR p) * rtrace p (rmul p S S) + rtrace p S * rtrace p S.
Definition oas_den (p : nat) (r : R) (S : rmat) : R :=
  (Rmax (1 / r) 2 + 1 - 2 / INR p) * (rtrace p (rmul p S S) - rtrace p S * rtrace p S / INR p).
Definition oas_rho (p : nat) (r : R) (S : rmat) : R :=
  if Rleb (oas_den p r S) 0 then 1 else Rmin (Rmax (oas_num p S / oas_den p r S) 0) 1.
Lemma oas_cov_fin p r nb a : (1 <= p)%nat -> r <> 0 ->
  oas_cov (ewa_d p r nb a) = Ok (fm p p (shrinkI p (oas_rho p r (aC a)) (aC a))).
Proof.
  intros Hp Hr. pose proof (INR_nz p Hp) as Np. unfold oas_cov, ewa_d, emp_d. rd. set (S := aC a).
  rewrite n1_fin, py_div_fin by auto. cbn [bind]. rewrite matmul_fin by auto. cbn [bind].
  rewrite !nofZ_fin, nofn_fin, py_div_fin by auto. cbn [bind].
  rewrite py_max_fin, !mtrace_fin, !sub_fin, !mul_fin, !add_fin, (div_fin (rtrace p S) (INR p)), (div_fin (_ * _) (INR p)), !sub_fin, !mul_fin by auto.
  fold (oas_num p S). fold (oas_den p r S). rewrite n0_fin, leb_fin. unfold oas_rho.
  destruct (Rleb_spec (oas_den p r S) 0).
  - rewrite sub_fin, !mul_fin, meye_fin, !mscale_fin, madd_fin. reflexivity.
  - rewrite div_fin by lra. rewrite py_max_fin, py_min_fin, sub_fin, mul_fin, meye_fin, !mscale_fin, madd_fin. reflexivity.
Qed.
Lemma oas_pair r : diff_pair OAS (mkEwaP (N := NumX) (Fin r)).
Proof. split; [reflexivity|]. repeat split; intros; try reflexivity; try discriminate. Qed.
Lemma OAS_run p r diff rows xs : (1 <= p)%nat -> r <> 0 -> observes p diff rows xs -> xs <> [] ->
  let S := ewa_cov r (burn_len r) xs in
  exists o, partial_fit (new (C := OAS) (mkEwaP (N := NumX) (Fin r) diff)) (In2 rows) = (o, Ok tt) /\
    n_samples_ o = Ok (length xs) /\
    location_ o = Ok (fv p (ewa_mean r (burn_len r) xs)) /\
    covariance_ o = Ok (fm p p (shrinkI p (oas_rho p r S) S)) /\
    correlation_ o = cov_to_corrcoef (fm p p (shrinkI p (oas_rho p r S) S)).
Proof.
  intros Hp Hr Ho Hx S.
  apply (ewa_readout OAS (mkEwaP (N := NumX) (Fin r)) p r diff rows xs _ (oas_pair r) (fun d => d)); auto.
  - cbn [c_init OAS dict_class ewa_r]. now apply ewa_init_fin.
  - intros. apply ewa_update_fin.
  - cbn [c_cov OAS dict_class]. now rewrite oas_cov_fin by auto.
  - apply shrinkI_sym, sym_ewa_cov.
Qed.
Lemma oas_rho_range p r S : 0 <= oas_rho p r S <= 1.
Proof.
  unfold oas_rho. destruct (Rleb _ _); [lra|]. split; [|apply Rmin_r]. apply Rmin_glb; [apply Rmax_r|lra].
Qed.

(** ** Shrunk *)
Definition SHR (r delta : R) (target : string) (diff : bool) : ShrP (N := NumX) :=
  mkShrP (Fin r : NumX) (Fin delta : NumX) target diff.
Lemma shr_pair r delta target : diff_pair Shrunk (SHR r delta target).
Proof. split; [reflexivity|]. repeat split; intros; try reflexivity; try discriminate. Qed.
Lemma shr_identity_fin p r nb a delta b : (1 <= p)%nat ->
  shr_cov (SHR r delta "identity" b) (ewa_d p r nb a) = Ok (fm p p (shrinkI p delta (aC a))).
Proof.
  intros Hp. unfold shr_cov, ewa_d, emp_d. rd. cbn [SHR shr_target shr_delta String.eqb Ascii.eqb Bool.eqb bind].
  rewrite mtrace_fin, nofn_fin, div_fin by (now apply INR_nz).
  rewrite meye_fin, n1_fin, sub_fin, !mscale_fin, madd_fin. f_equal. apply fm_ext. intros. unfold shrinkI. ring.
Qed.
(** the volatilities used by the constant-correlation target, floored at 1e-6 *)
Definition vol (S : rmat) (i : nat) : R := sqrt (Rmax (S i i) e12).
(** mean off-diagonal correlation *)
Definition rbar (p : nat) (S : rmat) : R :=
  msk p (fun i j => negb (Nat.eqb i j)) (fun i j => S i j / (vol S i * vol S j)) /
  msk p (fun i j => negb (Nat.eqb i j)) (fun _ _ => 1).
Definition cc_target (p : nat) (S : rmat) : rmat :=
  fun i j => if Nat.eqb i j then S i i else rbar p S * (vol S i * vol S j).
Lemma vol_pos S i : 0 < vol S i.
Proof. apply sqrt_lt_R0. pose proof e12_pos. pose proof (Rmax_r (S i i) e12). lra. Qed.
Lemma offdiag_count p : msk p (fun i j => negb (Nat.eqb i j)) (fun _ _ => 1) = INR p * INR p - INR p.
Proof.
  rewrite offdiag_mask. rewrite (rsum_ext p _ (fun _ => INR p)).
  - unfold rtrace. rewrite !rsum_const. ring.
  - intros. rewrite rsum_const. ring.
Qed.
Lemma shr_cc_fin p r nb a delta target b : (1 <= p)%nat -> target <> "identity" ->
  shr_cov (SHR r delta target b) (ewa_d p r nb a) =
  Ok (fm p p (fun i j => (1 - delta) * aC a i j + delta * cc_target p (aC a) i j)).
Proof.
  intros Hp Ht. unfold shr_cov, ewa_d, emp_d. rd. cbn [SHR shr_target shr_delta].
  destruct (String.eqb_spec target "identity"); [contradiction|]. cbn [bind]. set (S := aC a).
  assert (Ev : map (fun v => nsqrt (np_max v (nlit 1 12))) (diagonal (fm p p S)) = fv p (vol S)).
  { rewrite diagonal_fin. apply map_fin. intros i Hi. rewrite lit12, np_max_fin. apply sqrt_fin.
    pose proof e12_pos. pose proof (Rmax_r (S i i) e12). lra. }
  rewrite Ev, outer_fin.
  rewrite mdiv_fin by (intros i j _ _; pose proof (vol_pos S i); pose proof (vol_pos S j); nra). cbn [bind].
  rewrite check_shape_fin. cbn [bind].
  set (off := masked p _ _).
  assert (Er : match off with [] => n0 | _ => vmean off end = Fin (rbar p S)).
  { destruct off as [|y l] eqn:E.
    - assert (M0 : forall F, msk p (fun i j => negb (Nat.eqb i j)) F = 0).
      { intros F. apply rsum_zero. intros i Hi. apply rsum_zero. intros j Hj.
        rewrite (proj1 (masked_nil p _ _) E i j Hi Hj). reflexivity. }
      unfold rbar. rewrite !M0. unfold Rdiv. rewrite Rmult_0_l. reflexivity.
    - rewrite <- E. unfold vmean. unfold off. rewrite masked_vsum, nofn_fin, masked_len. apply div_fin.
      rewrite <- (masked_len p _ (fm p p (fun i j => S i j / (vol S i * vol S j)))). fold off. rewrite E.
      apply not_0_INR. simpl. lia. }
  rewrite Er, mscale_fin, fm_nrows, fm_ncols by auto.
  assert (Et : tab2 p p (fun i j => if Nat.eqb i j then mget (fm p p S) i i
                else mget (fm p p (fun i j => rbar p S * (vol S i * vol S j))) i j) = fm p p (cc_target p S)).
  { apply tab2_ext. intros i j Hi Hj. rewrite !fm_get by auto. unfold cc_target. destruct (Nat.eqb i j); reflexivity. }
  rewrite Et, n1_fin, sub_fin, !mscale_fin, madd_fin. reflexivity.
Qed.
Lemma cc_target_sym p n S : sym n (cc_target p S).
Proof.
  intros i j _ _. unfold cc_target. rewrite (Nat.eqb_sym j i). destruct (Nat.eqb_spec i j); [now subst|]. ring.
Qed.
Lemma Shrunk_identity_run p r delta diff rows xs : (1 <= p)%nat -> r <> 0 -> observes p diff rows xs -> xs <> [] ->
  let S := ewa_cov r (burn_len r) xs in
  exists o, partial_fit (new (C := Shrunk) (SHR r delta "identity" diff)) (In2 rows) = (o, Ok tt) /\
    n_samples_ o = Ok (length xs) /\
    location_ o = Ok (fv p (ewa_mean r (burn_len r) xs)) /\
    covariance_ o = Ok (fm p p (shrinkI p delta S)) /\
    correlation_ o = cov_to_corrcoef (fm p p (shrinkI p delta S)).
Proof.
  intros Hp Hr Ho Hx S.
  apply (ewa_readout Shrunk (SHR r delta "identity") p r diff rows xs _ (shr_pair r delta "identity") (fun d => d)); auto.
  - cbn [c_init Shrunk dict_class SHR shr_r]. now apply ewa_init_fin.
  - intros. apply ewa_update_fin.
  - cbn [c_cov Shrunk dict_class]. now rewrite shr_identity_fin by auto.
  - apply shrinkI_sym, sym_ewa_cov.
Qed.
Lemma Shrunk_cc_run p r delta target diff rows xs : (1 <= p)%nat -> r <> 0 -> target <> "identity" ->
  observes p diff rows xs -> xs <> [] ->
  let S := ewa_cov r (burn_len r) xs in
  let F := fun i j => (1 - delta) * S i j + delta * cc_target p S i j in
  exists o, partial_fit (new (C := Shrunk) (SHR r delta target diff)) (In2 rows) = (o, Ok tt) /\
    n_samples_ o = Ok (length xs) /\
    location_ o = Ok (fv p (ewa_mean r (burn_len r) xs)) /\
    covariance_ o = Ok (fm p p F) /\
    correlation_ o = cov_to_corrcoef (fm p p F).
Proof.
  intros Hp Hr Ht Ho Hx S F.
  apply (ewa_readout Shrunk (SHR r delta target) p r diff rows xs _ (shr_pair r delta target) (fun d => d)); auto.
  - cbn [c_init Shrunk dict_class SHR shr_r]. now apply ewa_init_fin.
  - intros. apply ewa_update_fin.
  - cbn [c_cov Shrunk dict_class]. now rewrite shr_cc_fin by auto.
  - intros i j Hi Hj. unfold F. rewrite (cc_target_sym p p S i j Hi Hj). f_equal. f_equal. now apply (sym_ewa_cov _ _ _ p).
Qed.

(** The constant-correlation target of a psd matrix whose variances reach the floor is psd. *)
Lemma vol_sq S i : e12 <= S i i -> vol S i * vol S i = S i i.
Proof.
  intros H. unfold vol. rewrite Rmax_left by auto. apply sqrt_sqrt. pose proof e12_pos. lra.
Qed.
Lemma sum_sq_bound p (v : nat -> R) : (rsum p v) ^ 2 <= INR p * rsum p (fun i => v i * v i).
Proof.
  pose proof (rdot_cauchy p (fun _ => 1) v) as H. unfold rdot in H.
  rewrite (rsum_ext p (fun i => 1 * v i) v) in H by (intros; ring).
  rewrite (rsum_ext p (fun _ => 1 * 1) (fun _ => 1)) in H by (intros; ring). rewrite rsum_const in H.
  rewrite Rmult_1_r in H. exact H.
Qed.
Lemma rbar_range p S : (2 <= p)%nat -> psd p S -> (forall i, (i < p)%nat -> e12 <= S i i) ->
  0 <= 1 + (INR p - 1) * rbar p S /\ rbar p S <= 1.
Proof.
  intros Hp HS Hv.
  assert (Ip : 2 <= INR p) by (change 2 with (INR 2); now apply le_INR).
  set (Rm := fun i j => S i j / (vol S i * vol S j)).
  assert (V : forall i, 0 < vol S i) by apply vol_pos.
  assert (PR : psd p Rm).
  { apply (psd_ext p (fun i j => S i j * (/ vol S i * / vol S j))).
    - intros i j _ _. unfold Rm. field. split; apply Rgt_not_eq, V.
    - now apply psd_congr_diag. }
  assert (D : forall i, (i < p)%nat -> Rm i i = 1).
  { intros i Hi. unfold Rm. rewrite vol_sq by auto. field. pose proof e12_pos. specialize (Hv i Hi). lra. }
  assert (E : rbar p S = (rsum p (fun i => rsum p (Rm i)) - INR p) / (INR p * INR p - INR p)).
  { unfold rbar. fold Rm. rewrite offdiag_count, offdiag_mask. do 2 f_equal. unfold rtrace.
    rewrite (rsum_ext p _ (fun _ => 1)) by auto. rewrite rsum_const. ring. }
  assert (Q : 0 <= rsum p (fun i => rsum p (Rm i))).
  { destruct PR as [_ Q]. specialize (Q (fun _ => 1)). unfold qf in Q.
    rewrite (rsum_ext p _ (fun i => rsum p (Rm i))) in Q; auto.
    intros. apply rsum_ext. intros. ring. }
  assert (U : rsum p (fun i => rsum p (Rm i)) <= INR p * INR p).
  { replace (INR p * INR p) with (rsum p (fun _ => rsum p (fun _ => 1))) by (rewrite !rsum_const; ring).
    apply rsum_le. intros i Hi. apply rsum_le. intros j Hj.
    pose proof (psd_cauchy p Rm i j PR Hi Hj) as K. rewrite !D in K by auto. nra. }
  set (s := rsum p (fun i => rsum p (Rm i))) in *.
  assert (Dp : 0 < INR p * INR p - INR p) by nra.
  rewrite E. split.
  - replace (1 + (INR p - 1) * ((s - INR p) / (INR p * INR p - INR p))) with (s / INR p) by (field; split; nra).
    apply Rmult_le_pos; auto. left. apply Rinv_0_lt_compat. lra.
  - apply Rmult_le_reg_r with (INR p * INR p - INR p); auto.
    unfold Rdiv. rewrite Rmult_assoc, Rinv_l by lra. lra.
Qed.
Lemma cc_target_psd p S : (1 <= p)%nat -> psd p S -> (forall i, (i < p)%nat -> e12 <= S i i) -> psd p (cc_target p S).
Proof.
  intros Hp HS Hv.
  apply (psd_ext p (fun i j => (if Nat.eqb i j then 1 else rbar p S) * (vol S i * vol S j))).
  { intros i j Hi Hj. unfold cc_target. destruct (Nat.eqb_spec i j); [|reflexivity].
    subst j. rewrite vol_sq by auto. ring. }
  apply (psd_congr_diag p (fun i j => if Nat.eqb i j then 1 else rbar p S)).
  destruct (Nat.eq_dec p 1) as [->|Hp1].
  - apply (psd_ext 1 rI); [|apply psd_I]. intros i j Hi Hj. assert (i = 0%nat) by lia. assert (j = 0%nat) by lia. now subst.
  - destruct (rbar_range p S) as [L U]; auto; [lia|]. set (rb := rbar p S) in *.
    split.
    + intros i j _ _. now rewrite Nat.eqb_sym.
    + intros v. set (q := rsum p (fun i => v i * v i)).
      assert (Eq : qf p (fun i j => if Nat.eqb i j then 1 else rb) v = rb * (rsum p v) ^ 2 + (1 - rb) * q).
      { rewrite (qf_ext p _ (fun i j => rb * (1 * 1) + (1 - rb) * rI i j) v v).
        - rewrite (qf_plus p (fun _ _ => rb * (1 * 1)) (fun i j => (1 - rb) * rI i j)), (qf_scal p rb (fun _ _ => 1 * 1)), (qf_scal p (1 - rb)).
          rewrite (qf_outer p (fun _ => 1)). f_equal; [do 2 f_equal|f_equal].
          + unfold rdot. apply rsum_ext. intros; ring.
          + rewrite (qf_ext p rI (rdiag (fun _ => 1)) v v) by (intros; auto; intros i j _ _; reflexivity).
            rewrite qf_diag. apply rsum_ext. intros; ring.
        - intros i j _ _. unfold rI. destruct (Nat.eqb i j); ring.
        - auto. }
      rewrite Eq. pose proof (sum_sq_bound p v) as B. fold q in B.
      assert (Hq : 0 <= q) by (apply rsum_nonneg; intros; apply Rle_0_sqr).
      assert (0 <= (rsum p v) ^ 2) by apply pow2_ge_0.
      destruct (Rle_dec 0 rb).
      * apply Rplus_le_le_0_compat; apply Rmult_le_pos; lra.
      * assert (rb * (INR p * q) <= rb * rsum p v ^ 2) by nra.
        assert (0 <= (1 + (INR p - 1) * rb) * q) by (apply Rmult_le_pos; lra). nra.
Qed.

(** * ConditionalCovariance over finite data: the sub-models as real-valued statistics *)
From Coq Require Import Reals ZArith String List Lia Lra Arith Bool.
From Verif Require Import Num Numpy PyVal LinalgModel StateModel BaseModel Estimators
  Spec ListLemmas BaseProofs RMat Fin RealSpec RunFin EwaReal RunAvg EmpFacts Props_Emp
  ConditionalModel ConditionalSpec ConditionalProofs Props_Cond CondRealSpec.
Import ListNotations.
Local Open Scope R_scope.

Lemma col_app i a b : col i (a ++ b) = (col i a ++ col i b)%list.
Proof. apply map_app. Qed.

(** ** [_PreciseVar] is the template's class run on one column *)
Lemma pushed_fit {Cv : EstClass NumX} (vol : inst Cv) (s s' : inst Cv) ys :
  pushed (vol_of_estimator vol) s ys = Ok s' <-> partial_fit s (In2 (map (fun y : NumX => [y]) ys)) = (s', Ok tt).
Proof.
  unfold partial_fit. cbn [as_rows]. revert s. induction ys as [|y ys IH]; intros s; cbn [pushed map fit_rows].
  - split; intros [= <-]; reflexivity.
  - cbn [vm_push vol_of_estimator pv_push partial_fit as_rows fit_rows].
    destruct (fit_row s [y]) as [s1 [[]|e]]; [apply IH|]. split; discriminate.
Qed.
Lemma col_rows p i (xs : list obs) : (i < p)%nat -> map (fun x : vec NumX => vget x i) (map (fv p) xs) = map (fun z => Fin z : NumX) (col i xs).
Proof. intros H. unfold col. rewrite !map_map. apply map_ext. intros x. now apply fv_get. Qed.

Section Real.
  Context {Cv C : EstClass NumX} (vol : inst Cv) (corr : inst C) (mu va : list R -> R) (p : nat) (F : list obs -> rmat).
  Hypothesis Hvol : tracks vol mu va.
  Notation V := (vol_of_estimator vol).
  Let mu0 := mean_before mu. Let va0 := var_before va.

  Lemma vol_after_fin i (pre : list obs) : (i < p)%nat ->
    exists s : inst Cv, vol_after V i (map (fv p) pre) = Ok s /\ pv_mean s = Ok (Fin (mu0 (col i pre))) /\ pv_var s = Ok (Fin (va0 (col i pre))).
  Proof.
    intros Hi. unfold vol_after. cbn [vm_make vol_of_estimator bind]. rewrite (col_rows p i pre Hi). destruct pre as [|x pre].
    - exists (clone vol). split; [reflexivity|]. split; reflexivity.
    - destruct (Hvol (col i (x :: pre))) as (o & H1 & H2 & H3 & H4); [discriminate|].
      exists o. split.
      + apply pushed_fit. rewrite map_map. exact H1.
      + unfold pv_mean, pv_var. rewrite H2. cbn [bind]. unfold col at 1 3. rewrite !map_length. cbn [length Nat.ltb Nat.leb].
        rewrite H3, H4. split; reflexivity.
  Qed.
  Lemma forecast_fin i (pre : list obs) : (i < p)%nat ->
    forecast V i (map (fv p) pre) = Ok (Fin (mu0 (col i pre)) : NumX, Fin (va0 (col i pre)) : NumX).
  Proof.
    intros Hi. destruct (vol_after_fin i pre Hi) as (s & H1 & H2 & H3).
    apply (forecast_at V i (map (fv p) pre) s H1). split; assumption.
  Qed.
  Lemma forecasts_fin (pre : list obs) :
    forecasts V p (map (fv p) pre) = Ok (tab p (fun i => (Fin (mu0 (col i pre)) : NumX, Fin (va0 (col i pre)) : NumX))).
  Proof.
    unfold forecasts, tab. apply mapM_all_ok. intros i Hi. apply in_seq in Hi. apply forecast_fin. lia.
  Qed.
  Lemma residual_fin (pre : list obs) (x : obs) : residual V (map (fv p) pre) (fv p x) = Ok (fv p (std_residual mu va pre x)).
  Proof.
    unfold residual. rewrite fv_length. unfold fv at 3, tab. apply mapM_all_ok. intros i Hi. apply in_seq in Hi.
    rewrite forecast_fin by lia. cbn [bind]. f_equal. rewrite fv_get, lit12, py_max_fin, sub_fin by lia.
    pose proof e12_pos as E. pose proof (Rmax_r (va0 (col i pre)) e12) as M.
    rewrite sqrt_fin by lra. rewrite div_fin; [reflexivity|]. apply Rgt_not_eq. apply sqrt_lt_R0. lra.
  Qed.
  Lemma std_residuals_snoc xs x : std_residuals mu va (xs ++ [x]) = (std_residuals mu va xs ++ [std_residual mu va xs x])%list.
  Proof.
    unfold std_residuals. rewrite app_length. cbn [length]. rewrite Nat.add_1_r, seq_S, map_app. cbn [map Nat.add]. f_equal.
    - apply map_ext_in. intros t Ht. apply in_seq in Ht. unfold nthobs. rewrite firstn_app, app_nth1 by lia.
      replace (t - length xs)%nat with 0%nat by lia. now rewrite app_nil_r.
    - unfold nthobs. rewrite firstn_app, firstn_all, Nat.sub_diag, app_nil_r, app_nth2, Nat.sub_diag by lia. reflexivity.
  Qed.
  Lemma residuals_fin (xs : list obs) : residuals V (map (fv p) xs) = Ok (map (fv p) (std_residuals mu va xs)).
  Proof.
    induction xs as [|x xs IH] using rev_ind; [reflexivity|].
    rewrite std_residuals_snoc, map_app. cbn [map]. rewrite residuals_snoc, IH. cbn [bind]. rewrite residual_fin. cbn [bind].
    now rewrite map_app.
  Qed.
  Lemma std_residuals_nil xs : std_residuals mu va xs <> [] <-> xs <> [].
  Proof. destruct xs; [cbn; tauto|]. split; intros _; discriminate. Qed.

  Hypothesis Hcorr : models p corr F.
  Lemma cond_run xs : xs <> [] ->
    exists c, cond_partial_fit V corr (cond_new V) (In2 (map (fv p) xs)) = (c, Ok tt) /\
      cond_n_samples V c = length xs /\
      cond_location V c = Ok (fv p (fun i => mu (col i xs))) /\
      cond_covariance V c = Ok (fm p p (drd (fun i => va (col i xs)) (F (std_residuals mu va xs)))).
  Proof.
    intros Hx. assert (Hr : rows_of_length p (map (fv p) xs)) by apply observes_plain.
    assert (Hn : map (fv p) xs <> []) by (destruct xs; [contradiction|discriminate]).
    destruct (Hcorr (std_residuals mu va xs)) as (cm & K1 & K2 & K3 & K4); [now apply std_residuals_nil|].
    assert (Hf : fitted_corr V corr (map (fv p) xs) = Ok cm).
    { unfold fitted_corr. rewrite residuals_fin. cbn [bind]. now rewrite K1. }
    destruct (proj2 (C48_succeeds V corr p (map (fv p) xs) Hr Hn)) as (c & Hc).
    { exists cm. eexists. split; [exact Hf|apply forecasts_fin]. }
    exists c. split; [exact Hc|].
    destruct (C48_composition V corr p _ c Hr Hn Hc) as (cm' & fs & H1 & H2 & _ & H4 & H5 & H6).
    rewrite Hf in H1. injection H1 as <-. rewrite forecasts_fin in H2. injection H2 as <-.
    split; [now rewrite H4, map_length|].
    assert (Hm : forall i, mu0 (col i xs) = mu (col i xs)) by (intros; destruct xs; [contradiction|reflexivity]).
    assert (Hv : forall i, va0 (col i xs) = va (col i xs)) by (intros; destruct xs; [contradiction|reflexivity]).
    split; [rewrite H5; f_equal; rewrite map_tab; apply tab_ext; intros; cbn [fst]; now rewrite Hm|].
    cbv zeta in H6. rewrite H6. unfold correlation_. rewrite K2. cbn [bind].
    rewrite cov_to_corrcoef_fin by (intros; now apply K4). cbn [bind].
    match goal with |- context [outer ?d _] => assert (ED : d = fv p (fun i => sqrt (Rmax (va (col i xs)) e12))) end.
    { rewrite map_tab. apply tab_ext. intros i _. cbn [snd]. unfold scale. rewrite lit12, py_max_fin, np_max_fin, Hv.
      rewrite (Rmax_left (Rmax _ _)) by apply Rmax_r. apply sqrt_fin. pose proof e12_pos. pose proof (Rmax_r (va (col i xs)) e12). lra. }
    rewrite ED, outer_fin, mmul_fin. cbn [bind]. apply to_symmetric_sym_fin.
    intros i j Hi Hj. unfold drd. rewrite (K3 i j Hi Hj). rewrite (Rmult_comm (F _ i i)). rewrite (Rmult_comm (sqrt _) (sqrt (Rmax (va (col j xs)) e12))). reflexivity.
  Qed.
End Real.

(** ** EwaCovariance as volatility model and as correlation model *)
Definition lift (zs : list R) : list obs := map (fun z _ => z) zs.
Lemma nthobs_col i xs j k : nthobs (lift (col i xs)) j k = nthobs xs j i.
Proof.
  unfold nthobs, lift, col. rewrite map_map.
  exact (f_equal (fun g : obs => g k) (map_nth (fun (x : obs) (_ : nat) => x i) xs (fun _ => 0) j)).
Qed.
Lemma lift_col i xs : lift (col i xs) = map (fun (x : obs) (_ : nat) => x i) xs.
Proof. unfold lift, col. now rewrite map_map. Qed.
Lemma mean_of_col i xs k : mean_of (map (fun (x : obs) (_ : nat) => x i) xs) k = mean_of xs i.
Proof. unfold mean_of. now rewrite map_map, map_length. Qed.
Lemma ewm_col r m m' i xs k : m k = m' i -> ewm r m (map (fun (x : obs) (_ : nat) => x i) xs) k = ewm r m' xs i.
Proof.
  intros H. unfold ewm. rewrite map_length, H. f_equal. apply rsum_ext. intros j _. now rewrite <- lift_col, nthobs_col.
Qed.
Lemma ewa_mean_col r nb i xs k : ewa_mean r nb (map (fun (x : obs) (_ : nat) => x i) xs) k = ewa_mean r nb xs i.
Proof.
  unfold ewa_mean, burn, after. rewrite firstn_map, skipn_map. apply ewm_col. apply mean_of_col.
Qed.
Lemma ewa_cov_col r nb i xs k l : ewa_cov r nb (map (fun (x : obs) (_ : nat) => x i) xs) k l = ewa_cov r nb xs i i.
Proof.
  unfold ewa_cov, ewc, burn, after. rewrite firstn_map, skipn_map, map_length. f_equal.
  - f_equal. unfold pcov_of. rewrite map_map, map_length. f_equal. apply lsum_map_ext. intros. now rewrite !mean_of_col.
  - apply rsum_ext. intros j _. f_equal. unfold innov. rewrite <- lift_col, !nthobs_col, lift_col, firstn_map.
    rewrite !(ewm_col r _ (mean_of (firstn nb xs))) by apply mean_of_col. reflexivity.
Qed.
Definition ewa_mu (r : R) (zs : list R) : R := ewa_mean r (burn_len r) (lift zs) 0%nat.
Definition ewa_va (r : R) (zs : list R) : R := ewa_cov r (burn_len r) (lift zs) 0%nat 0%nat.
Lemma ewa_mu_col r i xs : ewa_mu r (col i xs) = ewa_mean r (burn_len r) xs i.
Proof. unfold ewa_mu. rewrite lift_col. apply ewa_mean_col. Qed.
Lemma ewa_va_col r i xs : ewa_va r (col i xs) = ewa_cov r (burn_len r) xs i i.
Proof. unfold ewa_va. rewrite lift_col. apply ewa_cov_col. Qed.
Lemma lift_rows zs : map (fun z : R => [Fin z : NumX]) zs = map (fv 1) (lift zs).
Proof. unfold lift. rewrite map_map. reflexivity. Qed.
Lemma ewa_tracks r (vol : inst Ewa) : r <> 0 -> i_params vol = EWA r false -> tracks vol (ewa_mu r) (ewa_va r).
Proof.
  intros Hr HP zs Hz. rewrite HP, lift_rows.
  destruct (Ewa_run 1 r false (map (fv 1) (lift zs)) (lift zs)) as (o & H1 & H2 & H3 & H4 & _); auto; [apply observes_plain|destruct zs; [contradiction|discriminate]|].
  exists o. split; [exact H1|]. split; [rewrite H2; unfold lift; now rewrite map_length|]. split; [exact H3|exact H4].
Qed.
Lemma ewa_models p r (corr : inst Ewa) : 0 < r <= 1 -> i_params corr = EWA r false -> models p corr (ewa_cov r (burn_len r)).
Proof.
  intros Hr HP es He. rewrite HP.
  destruct (Ewa_run p r false (map (fv p) es) es) as (o & H1 & H2 & H3 & H4 & _); auto; [lra|apply observes_plain|].
  exists o. split; [exact H1|]. split; [exact H4|]. split; [apply sym_ewa_cov|].
  intros i Hi. apply (psd_diag_nonneg p); auto. apply psd_ewa_cov. lra.
Qed.

(** ** Single steps with a separate history for every series *)
Section Step.
  Context {Cv C : EstClass NumX} (vol : inst Cv) (corr : inst C) (mu va : list R -> R) (p : nat) (F : list obs -> rmat).
  Hypothesis Hvol : tracks vol mu va.
  Hypothesis Hcorr : models p corr F.
  Notation V := (vol_of_estimator vol).
  Definition vol_at (h : list R) (s : inst Cv) : Prop := pushed V (clone vol) (map (fun z => Fin z : NumX) h) = Ok s.
  Definition hist (hs : nat -> list R) (vs : list (inst Cv)) : Prop := Forall2 (fun i s => vol_at (hs i) s) (seq 0 p) vs.

  Lemma vol_at_reads h s : vol_at h s -> pv_mean s = Ok (Fin (mean_before mu h)) /\ pv_var s = Ok (Fin (var_before va h)).
  Proof.
    unfold vol_at. destruct h as [|z h]; [intros [= <-]; split; reflexivity|].
    intros H. apply pushed_fit in H. rewrite map_map in H. destruct (Hvol (z :: h)) as (o & H1 & H2 & H3 & H4); [discriminate|].
    assert (E : o = s) by (change (new (i_params vol)) with (clone vol) in H1; congruence). subst o.
    unfold pv_mean, pv_var. rewrite H2, H3, H4. split; reflexivity.
  Qed.
  Lemma vol_at_push h s z : vol_at h s -> exists s', pv_push s (Fin z) = (s', Ok tt) /\ vol_at (h ++ [z]) s'.
  Proof.
    intros H. destruct (Hvol (h ++ [z])%list) as (o & H1 & _); [destruct h; discriminate|].
    assert (K : vol_at (h ++ [z]) o).
    { unfold vol_at. apply pushed_fit. rewrite map_map. exact H1. }
    exists o. split; [|exact K]. unfold vol_at in K. rewrite map_app in K. cbn [map] in K. rewrite pushed_app in K. unfold vol_at in H. rewrite H in K. cbn [bind] in K.
    change (vm_push V s (Fin z)) with (pv_push s (Fin z : NumX)) in K.
    destruct (pv_push s (Fin z : NumX)) as [s' [[]|e]]; [congruence|discriminate].
  Qed.
  Lemma hist_gen (f : inst Cv -> res NumX) (g : list R -> R) hs vs :
    (forall h s, vol_at h s -> f s = Ok (Fin (g h))) -> hist hs vs -> mapM f vs = Ok (fv p (fun i => g (hs i))).
  Proof.
    intros Hf. unfold hist, fv, tab. generalize (seq 0 p) as l. intros l H. induction H as [|i s l vs H1 H2 IH]; [reflexivity|].
    cbn [mapM map]. rewrite (Hf _ _ H1). cbn [bind]. rewrite IH. reflexivity.
  Qed.
  Lemma hist_means hs vs : hist hs vs -> means V vs = Ok (fv p (fun i => mean_before mu (hs i))).
  Proof. apply (hist_gen (@pv_mean NumX Cv)). intros h s H. now apply vol_at_reads. Qed.
  Lemma hist_vars hs vs : hist hs vs -> variances V vs = Ok (fv p (fun i => Rmax (var_before va (hs i)) e12)).
  Proof.
    intros H. unfold variances. apply (hist_gen (fun s => v <- pv_var s ;; Ok (py_max v vol_floor)) (fun h => Rmax (var_before va h) e12) hs vs); [|exact H].
    intros h s K. rewrite (proj2 (vol_at_reads _ _ K)). cbn [bind]. unfold vol_floor. now rewrite lit12, py_max_fin.
  Qed.
  Lemma hist_push_gen (hs : nat -> list R) (x : obs) n : forall a vs, Forall2 (fun i s => vol_at (hs i) s) (seq a n) vs ->
    exists vs', push_all V vs (map (fun i => Fin (x i) : NumX) (seq a n)) = (vs', Ok tt) /\
      Forall2 (fun i s => vol_at (hs i ++ [x i]) s) (seq a n) vs'.
  Proof.
    induction n as [|n IH]; intros a vs H; cbn [seq map] in *; inversion H as [|? s ? vr H1 H2]; subst.
    - exists []. split; [reflexivity|constructor].
    - destruct (vol_at_push _ _ (x a) H1) as (s' & P1 & P2). destruct (IH (S a) vr H2) as (vr' & Q1 & Q2).
      exists (s' :: vr'). cbn [push_all]. change (vm_push V s (Fin (x a))) with (pv_push s (Fin (x a) : NumX)). rewrite P1, Q1. split; [reflexivity|].
      constructor; auto.
  Qed.
  Lemma hist_push hs x vs : hist hs vs -> exists vs', push_all V vs (fv p x) = (vs', Ok tt) /\ hist (fun i => hs i ++ [x i])%list vs'.
  Proof. intros H. apply (hist_push_gen hs x p 0 vs H). Qed.

  Definition hist_residual (hs : nat -> list R) (x : obs) : obs := fun i => (x i - mean_before mu (hs i)) / sqrt (Rmax (var_before va (hs i)) e12).
  Lemma sd_nz v : sqrt (Rmax v e12) <> 0.
  Proof. apply Rgt_not_eq. apply sqrt_lt_R0. pose proof e12_pos. pose proof (Rmax_r v e12). lra. Qed.
  Lemma sd_map (v : obs) : map nsqrt (fv p (fun i => Rmax (v i) e12)) = fv p (fun i => sqrt (Rmax (v i) e12)).
  Proof. apply map_fin. intros i _. apply sqrt_fin. pose proof e12_pos. pose proof (Rmax_r (v i) e12). lra. Qed.
  Lemma hist_eps hs x vs : hist hs vs ->
    (m <- means V vs ;; v <- variances V vs ;; e <- vsub (fv p x) m ;; vdiv e (map nsqrt v)) = Ok (fv p (hist_residual hs x)).
  Proof.
    intros H. rewrite (hist_means _ _ H), (hist_vars _ _ H). cbn [bind]. rewrite vsub_fin. cbn [bind]. rewrite sd_map.
    apply vdiv_fin. intros. apply sd_nz.
  Qed.
  (** the correlation model after the residuals [es] *)
  Definition corr_at (es : list obs) (cm : inst C) : Prop := partial_fit (clone corr) (In2 (map (fv p) es)) = (cm, Ok tt).
  Lemma corr_at_step es cm e : corr_at es cm -> exists cm', partial_fit cm (In1 (fv p e)) = (cm', Ok tt) /\ corr_at (es ++ [e]) cm'.
  Proof.
    intros H. destruct (Hcorr (es ++ [e])%list) as (o & H1 & _); [destruct es; discriminate|].
    change (new (i_params corr)) with (clone corr) in H1. exists o. split; [|exact H1].
    rewrite map_app in H1. cbn [map] in H1. rewrite partial_fit_snoc in H1. unfold corr_at in H. now rewrite H in H1.
  Qed.
  Definition st_of (n : nat) (mean var : obs) (vs : list (inst Cv)) (cm : inst C) : cond V C :=
    mkCond (V := V) (Some p) (Some (mkCs p n (fv p mean) (fv p var))) (Some vs) (Some cm).
  Lemma cond_step_hist n mean var hs vs es cm x : hist hs vs -> corr_at es cm ->
    exists vs' cm', cond_step V (st_of n mean var vs cm) (fv p x) =
        (st_of (S n) (fun i => mean_before mu (hs i ++ [x i])) (fun i => Rmax (var_before va (hs i ++ [x i])) e12) vs' cm', Ok tt) /\
      hist (fun i => hs i ++ [x i])%list vs' /\ corr_at (es ++ [hist_residual hs x]) cm'.
  Proof.
    intros H K. destruct (corr_at_step es cm (hist_residual hs x) K) as (cm' & K1 & K2). destruct (hist_push hs x vs H) as (vs' & P1 & P2).
    exists vs', cm'. split; [|auto]. unfold cond_step, st_of. cbn [cd_state cd_vols cd_corr cd_nfeat]. rewrite (hist_eps hs x vs H), K1, P1.
    rewrite (hist_means _ _ P2), (hist_vars _ _ P2). reflexivity.
  Qed.
  (** a row of length one: broadcast against the forecasts, absorbed by the correlation model and the first series, then IndexError *)
  Lemma cond_step_short n mean var hs vs es cm y : (2 <= p)%nat -> hist hs vs -> corr_at es cm ->
    exists vs' cm', cond_step V (st_of n mean var vs cm) [Fin y : NumX] = (st_of n mean var vs' cm', Err IndexError) /\
      hist (fun i => if Nat.eqb i 0 then hs i ++ [y] else hs i)%list vs' /\ corr_at (es ++ [hist_residual hs (fun _ => y)]) cm'.
  Proof.
    intros Hp H K. destruct (corr_at_step es cm (hist_residual hs (fun _ => y)) K) as (cm' & K1 & K2).
    assert (E : (m <- means V vs ;; v <- variances V vs ;; e <- vsub [Fin y : NumX] m ;; vdiv e (map nsqrt v)) = Ok (fv p (hist_residual hs (fun _ => y)))).
    { rewrite (hist_means _ _ H), (hist_vars _ _ H). cbn [bind]. rewrite sd_map.
      assert (E1 : vsub [Fin y : NumX] (fv p (fun i => mean_before mu (hs i))) = Ok (fv p (fun i => y - mean_before mu (hs i)))).
      { unfold vsub, bc. cbn [length]. rewrite fv_length. destruct (Nat.eqb_spec 1 p); [lia|].
        f_equal. unfold fv. rewrite map_tab. reflexivity. }
      rewrite E1. cbn [bind]. apply vdiv_fin. intros. apply sd_nz. }
    unfold hist in H. assert (exists q, p = S (S q)) as (q & Ep) by (exists (p - 2)%nat; lia).
    assert (Eq : seq 0 p = 0%nat :: 1%nat :: seq 2 q) by (rewrite Ep; reflexivity). rewrite Eq in H.
    inversion H as [|? s0 ? vr H0 H1]; subst. inversion H1 as [|? s1 ? vr' H4 H3]; subst.
    destruct (vol_at_push _ _ y H0) as (s0' & P1 & P2).
    exists (s0' :: s1 :: vr'), cm'. split.
    - unfold cond_step, st_of. cbn [cd_state cd_vols cd_corr cd_nfeat]. rewrite E, K1. cbn [push_all].
      change (vm_push V s0 (Fin y)) with (pv_push s0 (Fin y : NumX)). rewrite P1. reflexivity.
    - split; [|exact K2]. unfold hist. rewrite Eq. constructor; [exact P2|]. constructor; [exact H4|].
      clear -H3. assert (A : Forall (fun i => i <> 0%nat) (seq 2 q)) by (apply Forall_forall; intros i Hi; apply in_seq in Hi; lia).
      revert A H3. generalize (seq 2 q) as l. intros l A B. induction B as [|i s l vs B1 B2 IH]; [constructor|].
      inversion A; subst. constructor; [|auto]. destruct (Nat.eqb_spec i 0); [contradiction|exact B1].
  Qed.
  Lemma cond_run_hist xs : xs <> [] -> exists vs cm,
    cond_partial_fit V corr (cond_new V) (In2 (map (fv p) xs)) =
      (st_of (length xs) (fun i => mu (col i xs)) (fun i => Rmax (va (col i xs)) e12) vs cm, Ok tt) /\
    hist (fun i => col i xs) vs /\ corr_at (std_residuals mu va xs) cm.
  Proof.
    intros Hx. assert (Hr : rows_of_length p (map (fv p) xs)) by apply observes_plain.
    assert (Hn : map (fv p) xs <> []) by (destruct xs; [contradiction|discriminate]).
    destruct (cond_run vol corr mu va p F Hvol Hcorr xs Hx) as (c & H & _). pose proof H as H'.
    unfold cond_partial_fit in H'. cbn [as_rows] in H'. apply (cond_rows_run V corr p) in H'; auto.
    destruct H' as (vs & eps & cm & mean & var & A1 & A2 & A3 & [[A4 _]|(_ & A4 & A5)] & ->); [contradiction|].
    assert (Hh : hist (fun i => col i xs) vs).
    { unfold hist, vols_after in *. assert (B : Forall (fun i => (i < p)%nat) (seq 0 p)) by (apply Forall_forall; intros i Hi; apply in_seq in Hi; lia).
      revert B A1. generalize (seq 0 p) as l. clear -Hx. intros l B A. induction A as [|i s l vs A1 A2 IH]; [constructor|].
      inversion B; subst. constructor; [|auto]. unfold vol_after in A1. cbn [vm_make vol_of_estimator bind] in A1.
      rewrite (col_rows p) in A1 by auto. exact A1. }
    exists vs, cm. split; [|split; [exact Hh|]].
    - rewrite H. unfold st_of. rewrite map_length. rewrite (hist_means _ _ Hh) in A4. rewrite (hist_vars _ _ Hh) in A5. injection A4 as <-. injection A5 as <-.
      assert (Em : fv p (fun i => mean_before mu (col i xs)) = fv p (fun i => mu (col i xs))) by (apply fv_ext; intros; destruct xs; [contradiction|reflexivity]).
      assert (Ev : fv p (fun i => Rmax (var_before va (col i xs)) e12) = fv p (fun i => Rmax (va (col i xs)) e12)) by (apply fv_ext; intros; destruct xs; [contradiction|reflexivity]).
      now rewrite Em, Ev.
    - rewrite (residuals_fin vol mu va p Hvol) in A2. injection A2 as <-. exact A3.
  Qed.
  Lemma st_reads n mean var vs es cm : corr_at es cm -> es <> [] -> (forall i, e12 <= var i) ->
    cond_n_samples V (st_of (S n) mean var vs cm) = S n /\ cond_location V (st_of (S n) mean var vs cm) = Ok (fv p mean) /\
    cond_covariance V (st_of (S n) mean var vs cm) = Ok (fm p p (drd var (F es))).
  Proof.
    intros K He Hv. split; [reflexivity|]. split; [reflexivity|].
    destruct (Hcorr es He) as (o & K1 & K2 & K3 & K4). assert (E : o = cm) by (change (new (i_params corr)) with (clone corr) in K1; unfold corr_at in K; congruence). subst o.
    unfold cond_covariance, cond_fitted, st_of. cbn [cd_state cs_n cd_corr bind cs_var Nat.ltb Nat.leb]. unfold correlation_. rewrite K2. cbn [bind].
    rewrite cov_to_corrcoef_fin by (intros; now apply K4). cbn [bind]. unfold vol_floor. rewrite lit12.
    rewrite (map_fin p _ (fun i => sqrt (Rmax (var i) e12)) var).
    2:{ intros i _. rewrite np_max_fin. apply sqrt_fin. pose proof e12_pos. pose proof (Rmax_r (var i) e12). lra. }
    rewrite outer_fin, mmul_fin. cbn [bind]. apply to_symmetric_sym_fin.
    intros i j Hi Hj. rewrite (K3 i j Hi Hj). rewrite (Rmult_comm (F es i i)). rewrite (Rmult_comm (sqrt (Rmax (var i) e12))). reflexivity.
  Qed.
  Lemma st_partial_fit n mean var vs cm x : cond_partial_fit V corr (st_of n mean var vs cm) (In1 x) = cond_step V (st_of n mean var vs cm) x.
  Proof.
    unfold cond_partial_fit. cbn [as_rows cond_rows]. unfold cond_row.
    change (cond_start V corr (st_of n mean var vs cm) x) with (st_of n mean var vs cm, Ok tt : res unit).
    destruct (cond_step V (st_of n mean var vs cm) x) as [c' [[]|e]]; reflexivity.
  Qed.
End Step.

(** * C48: ConditionalCovariance is the composition it documents (for every arithmetic, class and volatility model) *)
From Coq Require Import ZArith Bool String List Lia Arith.
From Verif Require Import Num Numpy PyVal LinalgModel BaseModel Spec ListLemmas BaseProofs ConditionalModel ConditionalSpec ConditionalProofs.
Import ListNotations.

Section Cond.
  Context {N : Num} (V : VolModel N) {C : EstClass N} (corr : inst C).

  Lemma forecasts_of d pre vs : vols_after V d pre vs ->
    forall fs, forecasts V d pre = Ok fs <->
      means V vs = Ok (map fst fs) /\ exists vr, mapM (vm_var V) vs = Ok vr /\ map snd fs = vr /\ length fs = length vs.
  Proof.
    unfold vols_after, forecasts. intros H.
    induction H as [|i s l vs' H1 H2 IH]; intros fs.
    - cbn. split; [intros [= <-]; cbn; eauto|]. intros (_ & vr & _ & _ & L). destruct fs; [reflexivity|discriminate].
    - cbn [mapM]. unfold means. cbn [mapM length]. split.
      + intros E. apply bind_ok in E. destruct E as ((m, v) & F & E). apply bind_ok in E. destruct E as (fs' & E & [= <-]).
        apply (forecast_at V i pre s H1) in F. destruct F as [M Hv]. apply IH in E. destruct E as (E1 & vr & E2 & E3 & E4). unfold means in E1.
        rewrite M, E1. cbn [bind map fst snd]. split; [reflexivity|]. rewrite Hv, E2. cbn [bind]. exists (v :: vr). rewrite E3. cbn [length]. auto.
      + intros (E1 & vr & E2 & E3 & E4). destruct fs as [|(m, v) fs']; [discriminate|]. cbn [map fst snd length] in *.
        apply bind_ok in E1. destruct E1 as (m' & M & E1). apply bind_ok in E1. destruct E1 as (ms & M2 & [= <- ->]).
        apply bind_ok in E2. destruct E2 as (v' & Hv & E2). apply bind_ok in E2. destruct E2 as (vs0 & V2 & [= <-]). injection E3 as <- E3.
        rewrite (proj2 (forecast_at V i pre s H1 _ _) (conj M Hv)). cbn [bind].
        rewrite (proj2 (IH fs')); [reflexivity|]. split; [exact M2|]. exists vs0. auto.
  Qed.
  Lemma variances_of vs : variances V vs = (vr <- mapM (vm_var V) vs ;; Ok (map (fun v => py_max v (nlit 1 12)) vr)).
  Proof.
    unfold variances. induction vs as [|s vs IH]; cbn [mapM]; [reflexivity|].
    destruct (vm_var V s) as [v|]; cbn [bind]; [|reflexivity]. rewrite IH. destruct (mapM (vm_var V) vs); reflexivity.
  Qed.
  Lemma holds_forecasts d pre vs mean var : vols_after V d pre vs -> means V vs = Ok mean -> variances V vs = Ok var ->
    exists fs, forecasts V d pre = Ok fs /\ mean = map fst fs /\ var = map (fun f => py_max (snd f) (nlit 1 12)) fs.
  Proof.
    intros H M W. rewrite variances_of in W. apply bind_ok in W. destruct W as (vr & W & [= <-]).
    assert (L1 : length mean = d).
    { unfold means in M. apply mapM_Forall2 in M. rewrite <- (Forall2_length _ _ _ M), <- (Forall2_length _ _ _ H). apply seq_length. }
    assert (L2 : length vr = d).
    { apply mapM_Forall2 in W. rewrite <- (Forall2_length _ _ _ W), <- (Forall2_length _ _ _ H). apply seq_length. }
    assert (E1 : map fst (combine mean vr) = mean) by (clear -L1 L2; subst d; revert vr L2; induction mean; destruct vr; cbn; intros; try discriminate; auto; f_equal; auto).
    assert (E2 : map snd (combine mean vr) = vr) by (clear -L1 L2; subst d; revert vr L2; induction mean; destruct vr; cbn; intros; try discriminate; auto; f_equal; auto).
    exists (combine mean vr). split.
    - apply (forecasts_of d pre vs H). rewrite E1. split; [exact M|]. exists vr. rewrite E2, combine_length, L1, L2, Nat.min_id, <- (Forall2_length _ _ _ H), seq_length. auto.
    - split; [now symmetry|]. rewrite <- (map_map snd (fun v => py_max v (nlit 1 12))), E2. reflexivity.
  Qed.

  (** Each row is standardised by the forecasts made from the rows before it, coordinate by coordinate; the correlation
      model is a never-fitted clone of the template that sees exactly those residuals; the volatility model of series i
      sees exactly coordinate i; and the estimate recombines the two as D R D. *)
Theorem C48_composition d rows c : rows_of_length d rows -> rows <> [] ->
    cond_partial_fit V corr (cond_new V) (In2 rows) = (c, Ok tt) ->
    exists cm fs, fitted_corr V corr rows = Ok cm /\ forecasts V d rows = Ok fs /\
      cd_nfeat c = Some d /\ cond_n_samples V c = length rows /\
      cond_location V c = Ok (map fst fs) /\
      let D := map (fun f => scale (snd f)) fs in
      cond_covariance V c = (R <- correlation_ cm ;; H <- mmul R (outer D D) ;; to_symmetric H).
  Proof.
    intros Hr Hn H. unfold cond_partial_fit in H. cbn [as_rows] in H.
    apply (cond_rows_run V corr d rows) in H; auto.
    destruct H as (vs & eps & cm & mean & var & A1 & A2 & A3 & [[A4 _]|(_ & A4 & A5)] & ->); [contradiction|].
    destruct (holds_forecasts d rows vs mean var A1 A4 A5) as (fs & F & -> & ->).
    exists cm, fs. split.
    { unfold fitted_corr. rewrite A2. cbn [bind]. unfold clone in A3. now rewrite A3. }
    split; [exact F|]. split; [reflexivity|]. split; [reflexivity|].
    assert (L : Nat.ltb (length rows) 1 = false) by (destruct rows; [contradiction|reflexivity]).
    unfold cond_location, cond_covariance, cond_fitted. cbn [cd_state cs_n cd_corr]. rewrite L. cbn [bind cs_mean cs_var].
    split; [reflexivity|]. cbv zeta. rewrite map_map. reflexivity.
  Qed.
  (** ... and the call succeeds whenever all of those do. *)
Theorem C48_succeeds d rows : rows_of_length d rows -> rows <> [] ->
    ((exists c, cond_partial_fit V corr (cond_new V) (In2 rows) = (c, Ok tt)) <->
     (exists cm fs, fitted_corr V corr rows = Ok cm /\ forecasts V d rows = Ok fs)).
  Proof.
    intros Hr Hn. split.
    - intros (c & H). destruct (C48_composition d rows c Hr Hn H) as (cm & fs & H1 & H2 & _). eauto.
    - intros (cm & fs & H1 & H2). unfold cond_partial_fit. cbn [as_rows].
      assert (exists vs, vols_after V d rows vs) as (vs & Hv).
      { unfold forecasts in H2. destruct (mapM_sub _ (fun i => vol_after V i rows) _ _ H2) as (vs & E).
        - intros i f H. unfold forecast in H. apply bind_ok in H. destruct H as (s & -> & _). eauto.
        - exists vs. now apply mapM_Forall2. }
      apply (forecasts_of d rows vs Hv) in H2. destruct H2 as (M & vr & W & E & _).
      unfold fitted_corr in H1. apply bind_ok in H1. destruct H1 as (es & E1 & H1).
      destruct (partial_fit (new (i_params corr)) (In2 es)) as [o [[]|]] eqn:E2; [|discriminate].
      eexists. apply (cond_rows_run V corr d rows); auto.
      exists vs, es, o. do 2 eexists. split; [exact Hv|]. split; [exact E1|]. split; [exact E2|].
      split; [right; split; [exact Hn|]; split; [exact M|]|reflexivity]. rewrite variances_of, W. reflexivity.
  Qed.
  (** Feeding in batches is feeding at once. *)
Theorem C48_batches c rows more : 
    cond_partial_fit V corr c (In2 (rows ++ more)) =
    match cond_partial_fit V corr c (In2 rows) with
    | (c', Ok _) => cond_partial_fit V corr c' (In2 more) | (c', Err e) => (c', Err e) end.
  Proof. unfold cond_partial_fit. cbn [as_rows]. apply cond_rows_app. Qed.
  (** [fit] forgets everything: whatever the instance went through, it ends exactly as a new instance would. *)
Theorem C48_fit_forgets c d rows : rows_of_length d rows -> rows <> [] ->
    snd (cond_fit V corr c (In2 rows)) = snd (cond_partial_fit V corr (cond_new V) (In2 rows)) /\
    forall c1, cond_fit V corr c (In2 rows) = (c1, Ok tt) <-> cond_partial_fit V corr (cond_new V) (In2 rows) = (c1, Ok tt).
  Proof.
    intros Hr Hn. split.
    - unfold cond_fit, cond_partial_fit. cbn [as_rows]. destruct rows as [|x rows]; [contradiction|].
      cbn [cond_rows]. unfold cond_row, cond_start. cbn [cd_state cond_new]. destruct (mapM _ _) as [vs|e]; reflexivity.
    - intros c1. unfold cond_fit, cond_partial_fit. cbn [as_rows]. rewrite !(cond_rows_run V corr d rows) by auto. reflexivity.
  Qed.
Theorem C48_fit_needs_2d c v : snd (cond_fit V corr c (In1 v)) = Err ValueError /\ cond_n_samples V (fst (cond_fit V corr c (In1 v))) = 0.
  Proof. split; reflexivity. Qed.
  (** A [vol] that is neither an estimator nor callable is rejected when the first row arrives, not at construction. *)
Theorem C48_bad_vol_rejected (c : cond vol_invalid C) x rows : x <> [] ->
    snd (cond_fit vol_invalid corr c (In2 (x :: rows))) = Err TypeError.
  Proof. intros H. destruct x as [|y x]; [contradiction|]. reflexivity. Qed.
End Cond.

(** Templates are only ever cloned: their own observations never matter and they are never changed. *)
Theorem C48_templates_untouched {N : Num} {Cv C : EstClass N} (vol vol' : inst Cv) (corr corr' : inst C) c X :
  i_params vol = i_params vol' -> i_params corr = i_params corr' ->
  vol_of_estimator vol = vol_of_estimator vol' /\
  cond_partial_fit (vol_of_estimator vol) corr c X = cond_partial_fit (vol_of_estimator vol) corr' c X.
Proof.
  intros H1 H2. split.
  - unfold vol_of_estimator, clone. now rewrite H1.
  - assert (E : forall rows c, cond_rows (vol_of_estimator vol) corr c rows = cond_rows (vol_of_estimator vol) corr' c rows).
    { induction rows as [|x rows IH]; intros c0; cbn [cond_rows]; [reflexivity|].
      assert (K : cond_row (vol_of_estimator vol) corr c0 x = cond_row (vol_of_estimator vol) corr' c0 x).
      { unfold cond_row, cond_start, clone. now rewrite H2. }
      rewrite K. destruct (cond_row (vol_of_estimator vol) corr' c0 x) as [c1 [u|e]]; auto. }
    unfold cond_partial_fit. destruct (as_rows X); auto.
Qed.

(** ** What the two kinds of volatility model forecast *)
(** Before any data: mean 0 and variance 1, for both kinds. *)
Theorem C48_forecast_before_data {N : Num} {Cv : EstClass N} (vol : inst Cv) (k : Skater N) i :
  forecast (vol_of_estimator vol) i [] = Ok (n0, n1) /\ forecast (from_skater k) i [] = Ok (n0, n1).
Proof. split; reflexivity. Qed.
(** A template estimator: entry 0 of location_ and entry (0, 0) of covariance_ of a new instance with the template's
    parameters, fitted on the one-column matrix of series [i]. *)
Theorem C48_forecast_estimator {N : Num} {Cv : EstClass N} (vol : inst Cv) i pre o n m ms v vs cs :
  partial_fit (new (C := Cv) (i_params vol)) (In2 (map (fun x => [vget x i]) pre)) = (o, Ok tt) ->
  n_samples_ o = Ok (S n) -> location_ o = Ok (m :: ms) -> covariance_ o = Ok ((v :: vs) :: cs) ->
  forecast (vol_of_estimator vol) i pre = Ok (m, v).
Proof.
  intros E Hn Hm Hv. unfold forecast, vol_after. cbn [vm_make vol_of_estimator bind]. change (clone vol) with (new (C := Cv) (i_params vol)).
  assert (K : forall pre (o1 : inst Cv), partial_fit o1 (In2 (map (fun x => [vget x i]) pre)) = (o, Ok tt) ->
    pushed (vol_of_estimator vol) o1 (map (fun x => vget x i) pre) = Ok o).
  { clear. unfold partial_fit. cbn [as_rows]. induction pre as [|x pre IH]; intros o1 E; cbn [map pushed fit_rows] in *; [injection E as ->; reflexivity|].
    cbn [vm_push vol_of_estimator]. unfold pv_push, partial_fit. cbn [as_rows fit_rows]. destruct (fit_row o1 [vget x i]) as [o2 [[]|e]]; [|discriminate]. now apply IH. }
  rewrite (K pre _ E). cbn [bind vm_mean vm_var vol_of_estimator]. unfold pv_mean, pv_var. rewrite Hn. cbn [bind Nat.ltb Nat.leb]. rewrite Hm, Hv. reflexivity.
Qed.
(** A skater: mean and squared standard deviation of the first distribution it returned when called with the latest value;
    the state it is given is the one it returned before, None (here [sk_none]) at first. *)
Fixpoint skater_calls {N : Num} (k : Skater N) (st : sk_St k) (ys : list N) (last : list (N * N)) : res (list (N * N)) :=
  match ys with
  | [] => Ok last
  | y :: r => '(dists, st') <- sk_f k y st ;; match dists with [] => Err IndexError | _ => skater_calls k st' r dists end
  end.
Theorem C48_forecast_skater {N : Num} (k : Skater N) i pre x mean std more :
  skater_calls k (sk_none k) (map (fun x => vget x i) (pre ++ [x])) [] = Ok ((mean, std) :: more) ->
  forecast (from_skater k) i (pre ++ [x]) = Ok (mean, nmul std std).
Proof.
  intros E. unfold forecast, vol_after. cbn [vm_make from_skater bind].
  assert (K : forall ys st (m v : N) last, skater_calls k st ys last = Ok ((mean, std) :: more) -> (ys = [] -> m = mean /\ v = nmul std std) ->
    exists st', pushed (from_skater k) ((st, m, v) : vm_St (from_skater k)) ys = Ok ((st', mean, nmul std std) : vm_St (from_skater k))).
  { clear. intros ys. induction ys as [|y ys IH]; intros st m v last E H; cbn [skater_calls pushed] in *.
    - destruct (H eq_refl) as [-> ->]. eauto.
    - cbn [vm_push from_skater]. unfold sv_push. destruct (sk_f k y st) as [[ds st']|e]; cbn [bind] in E; [|discriminate].
      destruct ds as [|[a b] ds]; [discriminate|]. apply (IH st' a (nmul b b) _ E). intros ->. cbn [skater_calls] in E. injection E as -> -> _. auto. }
  destruct (K _ (sk_none k) n0 n1 [] E) as (st' & Es). { rewrite map_app. intros Q. exfalso. revert Q. now destruct (map _ pre). }
  match goal with |- context [pushed ?V ?a ?b] => replace (pushed V a b) with (Ok ((st', mean, nmul std std) : vm_St V)) by (symmetry; exact Es) end. reflexivity.
Qed.
(** Reads raise NotFittedError exactly as long as no row has been absorbed. *)
Theorem C48_unfitted {N : Num} (V : VolModel N) {C : EstClass N} (c : cond V C) :
  (cond_location V c = Err NotFittedError <-> cond_n_samples V c = 0) /\
  (cond_n_samples V c = 0 -> cond_covariance V c = Err NotFittedError).
Proof.
  unfold cond_location, cond_covariance, cond_fitted, cond_n_samples. destruct (cd_state c) as [s|]; [|cbn; tauto].
  destruct (cs_n s); cbn [Nat.ltb Nat.leb bind]; (split; [split|]); intros H; try reflexivity; discriminate.
Qed.

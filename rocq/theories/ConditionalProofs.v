(** * ConditionalCovariance: the composition (law-free) *)
From Coq Require Import ZArith Bool String List Lia Arith.
From Verif Require Import Num Numpy PyVal LinalgModel BaseModel Spec ListLemmas BaseProofs ConditionalModel ConditionalSpec.
Import ListNotations.

Lemma mapM_Forall2 {A B} (f : A -> res B) l r : mapM f l = Ok r <-> Forall2 (fun a b => f a = Ok b) l r.
Proof.
  revert r. induction l as [|a l IH]; intros r; cbn [mapM].
  - split; [intros [= <-]; constructor|intros H; inversion H; reflexivity].
  - split.
    + destruct (f a) as [b|] eqn:E; cbn [bind]; [|discriminate]. destruct (mapM f l) as [bs|] eqn:E2; cbn [bind]; [|discriminate].
      intros [= <-]. constructor; auto. now apply IH.
    + intros H. inversion H as [|? b ? bs H1 H2]; subst. rewrite H1. cbn [bind]. apply IH in H2. now rewrite H2.
Qed.
Lemma bind_ok {A B} (m : res A) (f : A -> res B) b : bind m f = Ok b <-> exists a, m = Ok a /\ f a = Ok b.
Proof. destruct m; cbn; split; [eauto|intros (? & [= <-] & ?); auto|discriminate|intros (? & ? & ?); discriminate]. Qed.
Lemma Forall2_length {A B} (P : A -> B -> Prop) l r : Forall2 P l r -> length l = length r.
Proof. induction 1; cbn; auto. Qed.

Section Cond.
  Context {N : Num} (V : VolModel N) {C : EstClass N} (corr : inst C).
  Notation cond := (cond V C).

  Definition vols_after (d : nat) (pre : list (vec N)) (vs : list (vm_St V)) : Prop :=
    Forall2 (fun i s => vol_after V i pre = Ok s) (seq 0 d) vs.
  Definition the_residual (pre : list (vec N)) (x : vec N) (i : nat) : res N :=
    '(m, v) <- forecast V i pre ;; Ok (ndiv (nsub (vget x i) m) (nsqrt (py_max v (nlit 1 12)))).

  Lemma forecast_at i pre s : vol_after V i pre = Ok s -> forall m v, forecast V i pre = Ok (m, v) <-> vm_mean V s = Ok m /\ vm_var V s = Ok v.
  Proof.
    intros H m v. unfold forecast. rewrite H. cbn [bind]. rewrite bind_ok. split.
    - intros (a & E & H2). rewrite bind_ok in H2. destruct H2 as (b & E2 & [= <- <-]). auto.
    - intros [E1 E2]. exists m. split; auto. rewrite E2. reflexivity.
  Qed.
  Lemma step_eps_gen pre x xl : forall a vs e, (forall k, k < length xl -> vget x (a + k) = nth k xl n0) ->
    Forall2 (fun i s => vol_after V i pre = Ok s) (seq a (length xl)) vs ->
    ((exists m v, means V vs = Ok m /\ variances V vs = Ok v /\ e = zipw ndiv (zipw nsub xl m) (map nsqrt v)) <->
     Forall2 (fun i b => the_residual pre x i = Ok b) (seq a (length xl)) e).
  Proof.
    induction xl as [|y xl IH]; intros a vs e Hx Hv; cbn [length seq] in *.
    - inversion Hv; subst. split.
      + intros (m & v & [= <-] & [= <-] & ->). constructor.
      + intros H. inversion H. exists [], []. repeat split.
    - inversion Hv as [|? s ? vs' H1 H2]; subst. pose proof (Hx 0 ltac:(lia)) as Hy. rewrite Nat.add_0_r in Hy. cbn [nth] in Hy.
      assert (IH' := fun e => IH (S a) vs' e (fun k Hk => eq_trans (f_equal (vget x) (plus_n_Sm a k)) (Hx (S k) ltac:(lia))) H2). clear IH.
      pose proof (forecast_at a pre s H1) as F.
      split.
      + intros (m & v & E1 & E2 & ->). unfold means, variances in E1, E2. cbn [mapM] in E1, E2.
        apply bind_ok in E1. destruct E1 as (m0 & M1 & E1). apply bind_ok in E1. destruct E1 as (ms & M2 & [= <-]).
        apply bind_ok in E2. destruct E2 as (v0 & V1 & E2). apply bind_ok in V1. destruct V1 as (v1 & V1 & [= <-]).
        apply bind_ok in E2. destruct E2 as (vs0 & V2 & [= <-]).
        cbn [zipw map]. constructor.
        * unfold the_residual. rewrite (proj2 (F m0 v1) (conj M1 V1)). cbn [bind]. now rewrite Hy.
        * apply IH'. exists ms, vs0. repeat split; auto.
      + intros H. inversion H as [|? b ? bs B1 B2]; subst. apply IH' in B2. destruct B2 as (ms & vs0 & E1 & E2 & ->).
        unfold the_residual in B1. apply bind_ok in B1. destruct B1 as ((m0, v1) & F1 & [= <-]). apply F in F1. destruct F1 as [M1 V1].
        exists (m0 :: ms), (py_max v1 (vol_floor (N := N)) :: vs0). unfold means, variances in *. cbn [mapM]. rewrite M1, E1, V1. cbn [bind]. rewrite E2. cbn [bind].
        split; [reflexivity|]. split; reflexivity.
  Qed.
  Lemma step_eps d pre x vs e : length x = d -> vols_after d pre vs ->
    ((m <- means V vs ;; v <- variances V vs ;; e <- vsub x m ;; vdiv e (map nsqrt v)) = Ok e <-> residual V pre x = Ok e).
  Proof.
    intros Hd Hv. subst d. unfold vols_after in Hv.
    pose proof (step_eps_gen pre x x 0 vs e ltac:(intros; reflexivity) Hv) as K. unfold residual.
    transitivity (exists m v, means V vs = Ok m /\ variances V vs = Ok v /\ e = zipw ndiv (zipw nsub x m) (map nsqrt v)).
    2:{ rewrite K. symmetry. apply mapM_Forall2. }
    assert (LV : length vs = length x) by (rewrite <- (Forall2_length _ _ _ Hv), seq_length; reflexivity).
    assert (Lm : forall A (f : vm_St V -> res A) r, mapM f vs = Ok r -> length r = length x).
    { intros A f r H. apply mapM_Forall2 in H. rewrite <- (Forall2_length _ _ _ H). exact LV. }
    rewrite bind_ok. split.
    - intros (m & M & H). apply bind_ok in H. destruct H as (v & Hv' & H). apply bind_ok in H. destruct H as (e0 & E0 & E1).
      exists m, v. split; auto. split; auto. unfold vsub, vdiv in *.
      rewrite bc_eqlen in E0 by (rewrite (Lm _ _ _ M); reflexivity). injection E0 as <-.
      rewrite bc_eqlen in E1; [now injection E1|]. rewrite zipw_length, map_length by (rewrite (Lm _ _ _ M); reflexivity). symmetry. apply (Lm _ _ _ Hv').
    - intros (m & v & M & Hv' & ->). exists m. split; auto. rewrite Hv'. cbn [bind]. unfold vsub, vdiv.
      rewrite bc_eqlen by (rewrite (Lm _ _ _ M); reflexivity). cbn [bind]. apply bc_eqlen.
      rewrite zipw_length, map_length by (rewrite (Lm _ _ _ M); reflexivity). symmetry. apply (Lm _ _ _ Hv').
  Qed.

  Lemma pushed_app s ys y : pushed V s (ys ++ [y]) = (s' <- pushed V s ys ;; match vm_push V s' y with (s'', Ok _) => Ok s'' | (_, Err e) => Err e end).
  Proof.
    revert s. induction ys as [|z ys IH]; intros s; cbn [pushed app].
    - cbn [bind]. destruct (vm_push V s y) as [s' [u|e]]; reflexivity.
    - destruct (vm_push V s z) as [s' [u|e]]; [apply IH|reflexivity].
  Qed.
  Lemma vol_after_snoc i pre x s : vol_after V i pre = Ok s ->
    vol_after V i (pre ++ [x]) = match vm_push V s (vget x i) with (s', Ok _) => Ok s' | (_, Err e) => Err e end.
  Proof.
    unfold vol_after. intros H. apply bind_ok in H. destruct H as (s0 & H0 & H). rewrite H0. cbn [bind].
    rewrite map_app. cbn [map]. rewrite pushed_app, H. reflexivity.
  Qed.
  Lemma push_all_gen pre x xl : forall a vs vs', (forall k, k < length xl -> vget x (a + k) = nth k xl n0) ->
    Forall2 (fun i s => vol_after V i pre = Ok s) (seq a (length xl)) vs ->
    (push_all V vs xl = (vs', Ok tt) <-> Forall2 (fun i s => vol_after V i (pre ++ [x]) = Ok s) (seq a (length xl)) vs').
  Proof.
    induction xl as [|y xl IH]; intros a vs vs' Hx Hv; cbn [length seq] in *.
    - inversion Hv; subst. cbn. split; [intros [= <-]; constructor|intros H; inversion H; reflexivity].
    - inversion Hv as [|? s ? vr H1 H2]; subst. pose proof (Hx 0 ltac:(lia)) as Hy. rewrite Nat.add_0_r in Hy. cbn [nth] in Hy.
      assert (IH' := fun e => IH (S a) vr e (fun k Hk => eq_trans (f_equal (vget x) (plus_n_Sm a k)) (Hx (S k) ltac:(lia))) H2). clear IH.
      pose proof (vol_after_snoc a pre x s H1) as S1. rewrite Hy in S1. cbn [push_all]. destruct (vm_push V s y) as [s1 [[]|e]] eqn:E.
      + destruct (push_all V vr xl) as [r o] eqn:E2. split.
        * intros [= <- ->]. constructor; auto. now apply IH'.
        * intros H. inversion H as [|? b ? bs B1 B2]; subst. rewrite S1 in B1. injection B1 as <-. apply IH' in B2. injection B2 as <- ->. reflexivity.
      + split; [discriminate|]. intros H. inversion H as [|? b ? bs B1 B2]; subst. rewrite S1 in B1. discriminate.
  Qed.
  Lemma push_all_spec d pre x vs vs' : length x = d -> vols_after d pre vs ->
    (push_all V vs x = (vs', Ok tt) <-> vols_after d (pre ++ [x]) vs').
  Proof. intros <- H. apply (push_all_gen pre x x 0); auto. Qed.

  (** What the instance holds after the rows [pre] of length [d] *)
  Definition holds_after (d : nat) (pre : list (vec N)) (c : cond) : Prop :=
    exists vs eps cm mean var, vols_after d pre vs /\ residuals V pre = Ok eps /\
      partial_fit (clone corr) (In2 eps) = (cm, Ok tt) /\
      (pre = [] /\ mean = vzeros d /\ var = vones d \/ pre <> [] /\ means V vs = Ok mean /\ variances V vs = Ok var) /\
      c = mkCond (Some d) (Some (mkCs d (length pre) mean var)) (Some vs) (Some cm).

  Lemma residuals_snoc pre x : residuals V (pre ++ [x]) = (es <- residuals V pre ;; e <- residual V pre x ;; Ok (es ++ [e])).
  Proof.
    unfold residuals. rewrite app_length. cbn [length]. rewrite Nat.add_1_r, seq_S, mapM_app. cbn [Nat.add].
    assert (E : mapM (fun t => residual V (firstn t (pre ++ [x])) (nth t (pre ++ [x]) [])) (seq 0 (length pre)) =
                mapM (fun t => residual V (firstn t pre) (nth t pre [])) (seq 0 (length pre))).
    { apply mapM_ext. intros t Ht. apply in_seq in Ht. rewrite firstn_app, app_nth1 by lia.
      replace (t - length pre) with 0 by lia. now rewrite app_nil_r. }
    rewrite E. clear E. destruct (mapM (fun t => residual V (firstn t pre) (nth t pre [])) (seq 0 (length pre))) as [es|]; cbn [bind]; [|reflexivity].
    cbn [mapM]. rewrite firstn_app, firstn_all, Nat.sub_diag, app_nil_r, app_nth2, Nat.sub_diag by lia. cbn [nth].
    destruct (residual V pre x); reflexivity.
  Qed.
  Lemma partial_fit_snoc (o : inst C) es e : partial_fit o (In2 (es ++ [e])) =
    match partial_fit o (In2 es) with (o', Ok _) => partial_fit o' (In1 e) | (o', Err x) => (o', Err x) end.
  Proof. unfold partial_fit. cbn [as_rows]. apply fit_rows_app. Qed.

  (** One row: it succeeds exactly when every forecast, the correlation update and every push succeed. *)
  Lemma cond_step_spec d pre x c c' : length x = d -> holds_after d pre c ->
    (cond_step V c x = (c', Ok tt) <-> holds_after d (pre ++ [x]) c').
  Proof.
    intros Hd (vs & eps & cm & mean & var & H1 & H2 & H3 & H4 & ->).
    pose proof (fun e => step_eps d pre x vs e Hd H1) as SE. pose proof (fun vs' => push_all_spec d pre x vs vs' Hd H1) as SP.
    unfold cond_step. cbn [cd_state cd_vols cd_corr cd_nfeat].
    destruct (m <- means V vs ;; _) as [e|ex] eqn:EE.
    2:{ split; [discriminate|]. intros (vs' & eps' & cm' & mean' & var' & _ & R & _). rewrite residuals_snoc, H2 in R. cbn [bind] in R.
        apply bind_ok in R. destruct R as (e & R & _). apply SE in R. discriminate. }
    pose proof (proj1 (SE e) eq_refl) as RE.
    destruct (partial_fit cm (In1 e)) as [cm1 [[]|ex]] eqn:EC.
    2:{ split; [discriminate|]. intros (vs' & eps' & cm' & mean' & var' & _ & R & K & _). rewrite residuals_snoc, H2, RE in R. cbn [bind] in R.
        injection R as <-. rewrite partial_fit_snoc, H3, EC in K. discriminate. }
    destruct (push_all V vs x) as [vs1 [[]|ex]] eqn:EP.
    2:{ split; [discriminate|]. intros (vs' & eps' & cm' & mean' & var' & K & _). apply SP in K. discriminate. }
    pose proof (proj1 (SP vs1) eq_refl) as HP.
    assert (UV : forall vs', vols_after d (pre ++ [x]) vs' -> vs' = vs1) by (intros vs' K; apply SP in K; now injection K).
    assert (NE : pre ++ [x] <> []) by (destruct pre; discriminate).
    destruct (means V vs1) as [m1|ex] eqn:EM.
    2:{ split; [discriminate|]. intros (vs' & eps' & cm' & mean' & var' & K & _ & _ & [[K1 _]|[_ [K1 _]]] & _); [contradiction|].
        rewrite (UV vs' K) in K1. congruence. }
    destruct (variances V vs1) as [v1|ex] eqn:EV.
    2:{ split; [discriminate|]. intros (vs' & eps' & cm' & mean' & var' & K & _ & _ & [[K1 _]|[_ [_ K1]]] & _); [contradiction|].
        rewrite (UV vs' K) in K1. congruence. }
    split.
    - intros [= <-]. exists vs1, (eps ++ [e]), cm1, m1, v1. split; auto. split; [now rewrite residuals_snoc, H2, RE|].
      split; [rewrite partial_fit_snoc, H3; exact EC|]. split; [right; auto|]. rewrite app_length. cbn [length cs_dim cs_n]. now rewrite Nat.add_1_r.
    - intros (vs' & eps' & cm' & mean' & var' & K & R & K2 & [[K1 _]|[_ [K3 K4]]] & ->); [contradiction|].
      rewrite (UV vs' K) in *. rewrite residuals_snoc, H2, RE in R. cbn [bind] in R. injection R as <-.
      rewrite partial_fit_snoc, H3, EC in K2. injection K2 as <-. rewrite app_length. cbn [length cs_dim cs_n]. rewrite Nat.add_1_r.
      rewrite EM in K3. rewrite EV in K4. congruence.
  Qed.

  Lemma holds_state d pre c : holds_after d pre c -> exists s, cd_state c = Some s /\ cs_n s = length pre.
  Proof. intros (vs & eps & cm & mean & var & _ & _ & _ & _ & ->). cbn. eauto. Qed.
  Lemma cond_row_held d pre x c c' : length x = d -> holds_after d pre c ->
    (cond_row V corr c x = (c', Ok tt) <-> holds_after d (pre ++ [x]) c').
  Proof.
    intros Hd H. unfold cond_row, cond_start. destruct (holds_state _ _ _ H) as (s & E & _). rewrite E. now apply cond_step_spec.
  Qed.
  Lemma holds_unique d pre c c' : holds_after d pre c -> holds_after d pre c' -> c = c'.
  Proof.
    intros (vs & eps & cm & mean & var & A1 & A2 & A3 & A4 & ->) (vs' & eps' & cm' & mean' & var' & B1 & B2 & B3 & B4 & ->).
    assert (vs = vs').
    { apply mapM_Forall2 in A1. apply mapM_Forall2 in B1. congruence. }
    subst vs'. rewrite A2 in B2. injection B2 as <-. rewrite A3 in B3. injection B3 as <-.
    assert (mean = mean' /\ var = var') as [<- <-]; [|reflexivity].
    destruct A4 as [(P & -> & ->)|(P & M1 & M2)], B4 as [(Q & -> & ->)|(Q & M3 & M4)]; auto; try contradiction; split; congruence.
  Qed.
  Lemma mapM_sub {A B B'} (f : A -> res B) (g : A -> res B') l r : mapM f l = Ok r ->
    (forall a b, f a = Ok b -> exists b', g a = Ok b') -> exists r', mapM g l = Ok r'.
  Proof.
    intros H G. revert r H. induction l as [|a l IH]; intros r H; cbn [mapM] in *; [eauto|].
    apply bind_ok in H. destruct H as (b & H1 & H2). apply bind_ok in H2. destruct H2 as (bs & H2 & _).
    destruct (G _ _ H1) as (b' & ->). destruct (IH _ H2) as (bs' & ->). cbn [bind]. eauto.
  Qed.
  Lemma holds_prev d pre x c : length x = d -> holds_after d (pre ++ [x]) c -> exists c0, holds_after d pre c0.
  Proof.
    intros Hd (vs & eps & cm & mean & var & A1 & A2 & A3 & _ & _).
    assert (exists vs0, vols_after d pre vs0) as (vs0 & V0).
    { apply mapM_Forall2 in A1. destruct (mapM_sub _ (fun i => vol_after V i pre) _ _ A1) as (vs0 & E).
      - intros i s H. unfold vol_after in *. apply bind_ok in H. destruct H as (s0 & H0 & H). rewrite H0. cbn [bind].
        rewrite map_app in H. cbn [map] in H. rewrite pushed_app in H. apply bind_ok in H. destruct H as (s1 & H & _). eauto.
      - exists vs0. now apply mapM_Forall2. }
    rewrite residuals_snoc in A2. apply bind_ok in A2. destruct A2 as (es & E1 & A2). apply bind_ok in A2. destruct A2 as (e & E2 & [= <-]).
    rewrite partial_fit_snoc in A3. destruct (partial_fit (clone corr) (In2 es)) as [cm0 [[]|]] eqn:E3; [|discriminate].
    apply (step_eps d pre x vs0 e Hd V0) in E2. apply bind_ok in E2. destruct E2 as (m & M & E2). apply bind_ok in E2. destruct E2 as (v & Hv & _).
    destruct pre as [|z pre'].
    - eexists. exists vs0, es, cm0, (vzeros d), (vones d). split; [exact V0|]. split; [exact E1|]. split; [exact E3|]. split; [left; auto|reflexivity].
    - eexists. exists vs0, es, cm0, m, v. split; [exact V0|]. split; [exact E1|]. split; [exact E3|]. split; [right; split; [discriminate|auto]|reflexivity].
  Qed.
  Lemma cond_rows_app c r1 r2 : cond_rows V corr c (r1 ++ r2) =
    match cond_rows V corr c r1 with (c', Ok _) => cond_rows V corr c' r2 | (c', Err e) => (c', Err e) end.
  Proof.
    revert c. induction r1 as [|x r1 IH]; intros c; cbn [cond_rows app]; [reflexivity|].
    destruct (cond_row V corr c x) as [c' [u|e]]; auto.
  Qed.
  Lemma cond_rows_one c x : cond_rows V corr c [x] = cond_row V corr c x.
  Proof. cbn. destruct (cond_row V corr c x) as [c' [[]|e]]; reflexivity. Qed.
  Lemma cond_rows_held d rows : forall pre c c', rows_of_length d rows -> holds_after d pre c ->
    (cond_rows V corr c rows = (c', Ok tt) <-> holds_after d (pre ++ rows) c').
  Proof.
    induction rows as [|x rows IH] using rev_ind; intros pre c c' Hr H.
    - rewrite app_nil_r. cbn. split; [intros [= <-]; exact H|]. intros H'. f_equal. eapply holds_unique; eauto.
    - apply Forall_app in Hr. destruct Hr as [Hr Hx]. inversion Hx as [|? ? Hx0 _]; subst.
      rewrite cond_rows_app, app_assoc. split.
      + destruct (cond_rows V corr c rows) as [c1 [[]|e]] eqn:E; [|discriminate]. apply (IH pre) in E; auto. rewrite cond_rows_one.
        apply cond_row_held; auto.
      + intros K. destruct (holds_prev _ _ _ _ eq_refl K) as (c0 & K0). pose proof (proj2 (IH pre c c0 Hr H) K0) as E. rewrite E, cond_rows_one.
        apply (cond_row_held (length x) (pre ++ rows)); auto.
  Qed.

  (** A run from scratch, whatever sub-models and n_features_in_ the instance still carries *)
  Lemma cond_rows_run d rows c c' : cd_state c = None -> rows_of_length d rows -> rows <> [] ->
    (cond_rows V corr c rows = (c', Ok tt) <-> holds_after d rows c').
  Proof.
    intros Hc Hr Hn. destruct rows as [|x rows]; [contradiction|]. inversion Hr as [|? ? Hx Hr']; subst.
    unfold cond_rows, cond_row, cond_start at 1. rewrite Hc.
    destruct (mapM (fun _ => vm_make V) (seq 0 (length x))) as [vs|e] eqn:E.
    - set (c0 := mkCond (Some (length x)) (Some (mkCs (length x) 0 (vzeros (length x)) (vones (length x)))) (Some vs) (Some (clone corr))).
      assert (H0 : holds_after (length x) [] c0).
      { exists vs, [], (clone corr), (vzeros (length x)), (vones (length x)).
        split; [apply mapM_Forall2; rewrite <- E; apply mapM_ext; intros; unfold vol_after; cbn [map pushed]; destruct (vm_make V); reflexivity|].
        split; [reflexivity|]. split; [reflexivity|]. split; [left; auto|reflexivity]. }
      rewrite <- (cond_rows_held (length x) (x :: rows) [] c0 c' Hr H0). cbn [cond_rows]. unfold cond_row, cond_start. reflexivity.
    - split; [discriminate|]. intros K. exfalso. destruct K as (vs & _ & _ & _ & _ & K & _). apply mapM_Forall2 in K.
      destruct (mapM_sub _ (fun _ => vm_make V) _ _ K) as (r & E2); [|congruence].
      intros i s H. unfold vol_after in H. apply bind_ok in H. destruct H as (s0 & -> & _). eauto.
  Qed.
End Cond.

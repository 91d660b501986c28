(** * C100: ConditionalCovariance pickles and resumes; templates are only parameters (every arithmetic, every registered class) *)
From Coq Require Import ZArith Bool String List Lia Arith.
From Verif Require Import Num Numpy PyVal LinalgModel StateModel BaseModel Estimators RegistryModel Spec ListLemmas BaseProofs
  Shapes ClassShapes BlockShapes StreamProofs ConditionalModel ConditionalProofs Props_Cond CondObjModel CondObjSpec CondObjProofs.
Import ListNotations.

(** Pickling never fails and the copy is indistinguishable, now and under every later history of calls (of any shape), whatever
    histories the instance and its two templates went through. *)
Theorem C100_pickle_and_resume :
  forall (N : Num) (L : LinAlg N), la_shapes L -> forall fuel kv kc, In kv (registry L fuel) -> In kc (registry L fuel) ->
  forall (vol : inst (rg_class kv)) (corr : inst (rg_class kc)) p cs, reachable vol -> reachable corr -> 1 <= p -> chistory p cs ->
    let o := fst (crun (co_new vol corr) cs) in
    exists o', co_pickle o = Ok o' /\ cindistinguishable L o o'.
Proof.
  intros N L HL fuel kv kc Hv Hk vol corr p cs Rv Rc Hp Hh o.
  destruct (registry_behaved L HL fuel kv Hv) as (wv & R1 & HBv). destruct (registry_behaved L HL fuel kc Hk) as (wf & R2 & HB).
  assert (I : oinv wv wf p o).
  { apply (crun_inv wv R1 HBv wf R2 HB p cs _ Hp Hh). split; [now apply (reachable_good wv R1 HBv)|]. split; [now apply (reachable_good wf R2 HB)|].
    split; intros l E; discriminate. }
  destruct (pickle_rel wv R1 HBv wf R2 HB p o Hp I) as (o' & E & K). exists o'. split; [exact E|]. exact (orel_indist wv R1 HBv wf R2 HB L o o' K).
Qed.

(** The same with skater volatility models whose state survives pickling. *)
Theorem C100_pickle_skater :
  forall (N : Num) (L : LinAlg N), la_shapes L -> forall fuel kc, In kc (registry L fuel) ->
  forall (k : Skater N) pk (corr : inst (rg_class kc)) p ms, skater_pickles k pk -> 1 <= p -> vhistory p ms ->
    let V := from_skater k in
    let pv := fun s : vm_St V => let '(st, m, v) := s in st' <- pk st ;; Ok (st', m, v) in
    let c := fst (vrun V corr (cond_new V) ms) in
    exists c', pickle_cond (V := V) (V' := V) pv c = Ok c' /\
      forall ms', snd (vrun V corr c ms') = snd (vrun V corr c' ms') /\ same_cond L (fst (vrun V corr c ms')) (fst (vrun V corr c' ms')).
Proof.
  intros N L HL fuel kc Hk k pk corr p ms (same & S1 & S2 & S3) Hp Hh V pv c.
  destruct (registry_behaved L HL fuel kc Hk) as (wf & R & HB).
  set (Rv := fun s s' : vm_St V => same (fst (fst s)) (fst (fst s')) /\ snd (fst s) = snd (fst s') /\ snd s = snd s').
  assert (HV : vol_rel (V := V) (V' := V) Rv).
  { split.
    - cbn. split; [apply S1|]. now split.
    - intros s s' (_ & E & _). cbn. now rewrite E.
    - intros s s' (_ & _ & E). cbn. now rewrite E.
    - intros [[st m] v] [[st' m'] v'] y (E1 & E2 & E3). cbn in E1, E2, E3. subst m' v'. cbn. specialize (S3 st st' y E1).
      destruct (sk_f k y st) as [[ds t]|e], (sk_f k y st') as [[ds' t']|e']; try contradiction.
      + destruct S3 as [<- S3]. destruct ds as [|[a b] ds]; cbn; (split; [reflexivity|]); split; cbn; auto.
      + subst e'. split; [reflexivity|]. split; cbn; auto. }
  assert (I : inv V (fun _ => True) wf p c).
  { unfold c. assert (I0 : inv V (fun _ => True) (C := rg_class kc) wf p (cond_new V)) by (split; intros l E; discriminate).
    revert I0. generalize (cond_new (C := rg_class kc) V). clear c. induction Hh as [|m ms Hm Hh IH]; intros c I0; [exact I0|]. cbn [vrun].
    assert (I1 : inv V (fun _ => True) wf p (fst (do_vcall V corr c m))).
    { destruct m as [X|X]; cbn [do_vcall].
      - unfold cond_partial_fit. destruct (as_rows X) as [rows|]; [|exact I0]. now apply (rows_inv V (fun _ => True) (fun _ _ => I) (fun _ _ _ => I) wf R HB p Hp).
      - unfold cond_fit. destruct X as [v|rows|n]; try exact I0. unfold cond_partial_fit. cbn [as_rows] in *.
        now apply (rows_inv V (fun _ => True) (fun _ _ => I) (fun _ _ _ => I) wf R HB p Hp). }
    destruct (do_vcall V corr c m) as [c1 r1]. cbn [fst] in I1. specialize (IH c1 I1). now destruct (vrun V corr c1 ms). }
  assert (exists c', pickle_cond (V := V) (V' := V) pv c = Ok c' /\ crel (V := V) (V' := V) Rv R c c') as (c' & E & K).
  { destruct I as [_ I]. unfold pickle_cond.
    assert (exists vs, pickle_opt (mapM pv) (cd_vols c) = Ok vs /\ ropt2 (Forall2 Rv) (cd_vols c) vs) as (vs & E3 & K3).
    { destruct (cd_vols c) as [l|]; [|exists None; now split].
      assert (exists l', mapM pv l = Ok l' /\ Forall2 Rv l l') as (l' & E & F).
      { clear -S2. induction l as [|[[st m] v] l (l' & E & F)]; [exists []; split; [reflexivity|constructor]|].
        destruct (S2 st) as (st' & E1 & E2). exists ((st', m, v) :: l'). cbn [mapM]. unfold pv at 1. rewrite E1. cbn [bind].
        match goal with |- context [mapM ?f l] => assert (E' : mapM f l = Ok l') by exact E; rewrite E' end. split; [reflexivity|]. constructor; [split; [exact E2|now split]|exact F]. }
      exists (Some l'). cbn [pickle_opt]. rewrite E. now split. }
    match goal with |- context [pickle_opt ?f (cd_vols ?c0)] => assert (E3' : pickle_opt f (cd_vols c0) = Ok vs) by exact E3; rewrite E3' end. cbn [bind].
    assert (exists cm, pickle_opt pickle_est (cd_corr c) = Ok cm /\ ropt2 (sim' R) (cd_corr c) cm) as (cm & E4 & K4).
    { destruct (cd_corr c) as [m|]; [|exists None; now split].
      destruct (pickle_good wf R HB p m Hp (I m eq_refl)) as (m' & E & _ & K). exists (Some m'). cbn [pickle_opt]. rewrite E. now split. }
    rewrite E4. cbn [bind]. eexists. split; [reflexivity|]. split; [reflexivity|]. split; [reflexivity|]. now split. }
  exists c'. split; [exact E|]. intros ms'.
  assert (G : snd (vrun V corr c ms') = snd (vrun V corr c' ms') /\ crel (V := V) (V' := V) Rv R (fst (vrun V corr c ms')) (fst (vrun V corr c' ms'))).
  { revert K. generalize c c'. clear -HV HB. induction ms' as [|m ms' IH]; intros c c' K; cbn [vrun]; [now split|].
    assert (D : snd (do_vcall V corr c m) = snd (do_vcall V corr c' m) /\ crel (V := V) (V' := V) Rv R (fst (do_vcall V corr c m)) (fst (do_vcall V corr c' m))).
    { destruct m as [X|X]; cbn [do_vcall]; [now apply (pf_rel Rv HV wf R HB)|now apply (cfit_rel Rv HV wf R HB)]. }
    destruct D as [D1 D2]. destruct (do_vcall V corr c m) as [c1 r1], (do_vcall V corr c' m) as [c2 r2]. cbn [fst snd] in D1, D2. subst r2.
    destruct (IH c1 c2 D2) as [G1 G2]. destruct (vrun V corr c1 ms'), (vrun V corr c2 ms'). cbn [fst snd] in *. subst. now split. }
  destruct G as [G1 G2]. split; [exact G1|]. exact (crel_same Rv wf R HB L _ _ G2).
Qed.

(** A clone of a ConditionalCovariance -- and any ConditionalCovariance built from the same templates -- is indistinguishable
    from one built from never-fitted templates with the same parameters: neither its own data nor theirs is carried over. *)
Theorem C100_clone_carries_no_data :
  forall (N : Num) (L : LinAlg N), la_shapes L -> forall fuel kv kc, In kv (registry L fuel) -> In kc (registry L fuel) ->
  forall (o : cobj (rg_class kv) (rg_class kc)),
    co_n_samples (co_clone o) = 0 /\
    cindistinguishable L (co_clone o) (co_new (new (i_params (co_vol o))) (new (i_params (co_corr o)))).
Proof.
  intros N L HL fuel kv kc Hv Hk o.
  destruct (registry_behaved L HL fuel kv Hv) as (wv & R1 & HBv). destruct (registry_behaved L HL fuel kc Hk) as (wf & R2 & HB).
  split; [reflexivity|]. apply (orel_indist wv R1 HBv wf R2 HB L). split; [reflexivity|]. split; [reflexivity|].
  split; [reflexivity|]. split; [reflexivity|]. now split.
Qed.

(** ** set_params(vol=..., corr=...) on a running instance does nothing before the next [fit] *)
Section Retag.
  Context {N : Num} {Cv C : EstClass N} (t t' : inst Cv) (corr corr' : inst C).
  Definition retag (c : cond (vol_of_estimator t) C) : cond (vol_of_estimator t') C :=
    mkCond (V := vol_of_estimator t') (cd_nfeat c) (cd_state c) (cd_vols c) (cd_corr c).
  Lemma step_retag c x : cond_step (vol_of_estimator t') (retag c) x = (retag (fst (cond_step (vol_of_estimator t) c x)), snd (cond_step (vol_of_estimator t) c x)).
  Proof.
    destruct c as [nf [s|] [vs|] [cm|]]; try reflexivity. unfold cond_step, retag. cbn [cd_state cd_vols cd_corr cd_nfeat].
    change (push_all (vol_of_estimator t') vs x) with (push_all (vol_of_estimator t) vs x).
    change (means (vol_of_estimator t') vs) with (means (vol_of_estimator t) vs). change (variances (vol_of_estimator t') vs) with (variances (vol_of_estimator t) vs).
    destruct (bind (means _ vs) _) as [eps|e]; [|reflexivity]. destruct (partial_fit cm (In1 eps)) as [cm1 [u|e]]; [|reflexivity].
    destruct (push_all (vol_of_estimator t) vs x) as [w [u1|e]]; [|reflexivity].
    change (means (vol_of_estimator t') w) with (means (vol_of_estimator t) w). change (variances (vol_of_estimator t') w) with (variances (vol_of_estimator t) w).
    destruct (means _ w); [|reflexivity]. destruct (variances _ w); reflexivity.
  Qed.
  Lemma step_state (c : cond (vol_of_estimator t) C) x s : cd_state c = Some s -> exists s', cd_state (fst (cond_step (vol_of_estimator t) c x)) = Some s'.
  Proof.
    intros E. unfold cond_step. rewrite E. destruct (cd_vols c) as [vs|]; [|eauto]. destruct (cd_corr c) as [cm|]; [|eauto].
    destruct (bind (means _ vs) _) as [eps|e]; [|eauto]. destruct (partial_fit cm (In1 eps)) as [cm1 [u|e]]; [|cbn; eauto].
    destruct (push_all (vol_of_estimator t) vs x) as [w [u1|e]]; [|cbn; eauto]. destruct (means _ w); [|cbn; eauto]. destruct (variances _ w); cbn; eauto.
  Qed.
  Lemma rows_retag rows c s : cd_state c = Some s ->
    cond_rows (vol_of_estimator t') corr' (retag c) rows = (retag (fst (cond_rows (vol_of_estimator t) corr c rows)), snd (cond_rows (vol_of_estimator t) corr c rows)) /\
    exists s', cd_state (fst (cond_rows (vol_of_estimator t) corr c rows)) = Some s'.
  Proof.
    revert c s; induction rows as [|x rows IH]; intros c s E; cbn [cond_rows]; [split; [reflexivity|eauto]|].
    unfold cond_row, cond_start. cbn [retag cd_state]. rewrite E. fold (retag c).
    rewrite step_retag. destruct (step_state c x s E) as (s1 & E1).
    destruct (cond_step (vol_of_estimator t) c x) as [c1 [u|e]]; cbn [fst snd] in *; [|split; [reflexivity|eauto]]. exact (IH c1 s1 E1).
  Qed.
End Retag.

Theorem C100_set_params_waits_for_fit {N : Num} (L : LinAlg N) {Cv C : EstClass N} (o : cobj Cv C) (t : inst Cv) (t' : inst C) Xs :
  1 <= co_n_samples o ->
  let o' := co_set_corr (co_set_vol o t) t' in
  let cs := map (CPartialFit Cv C) Xs in
  snd (crun o' cs) = snd (crun o cs) /\ same_cond L (co_cond (fst (crun o' cs))) (co_cond (fst (crun o cs))).
Proof.
  intros Hn o' cs.
  assert (E : exists s, cd_state (co_cond o) = Some s).
  { unfold co_n_samples, cond_n_samples in Hn. destruct (cd_state (co_cond o)) as [s|]; [eauto|lia]. }
  assert (K : forall (o o' : cobj Cv C), (exists s, cd_state (co_cond o) = Some s) -> co_cond o' = retag (co_vol o) (co_vol o') (co_cond o) ->
    snd (crun o' cs) = snd (crun o cs) /\ co_cond (fst (crun o' cs)) = retag (co_vol (fst (crun o cs))) (co_vol (fst (crun o' cs))) (co_cond (fst (crun o cs)))).
  { unfold cs. clear. induction Xs as [|X Xs IH]; intros o o' (s & E) Ho; cbn [map crun]; [split; [reflexivity|exact Ho]|].
    assert (D : snd (do_ccall o' (CPartialFit Cv C X)) = snd (do_ccall o (CPartialFit Cv C X)) /\
      (exists s', cd_state (co_cond (fst (do_ccall o (CPartialFit Cv C X)))) = Some s') /\
      co_cond (fst (do_ccall o' (CPartialFit Cv C X))) = retag (co_vol (fst (do_ccall o (CPartialFit Cv C X)))) (co_vol (fst (do_ccall o' (CPartialFit Cv C X)))) (co_cond (fst (do_ccall o (CPartialFit Cv C X))))).
    { destruct o as [tv tc c], o' as [tv' tc' c']. cbn [co_cond co_vol] in *. subst c'. cbn [do_ccall]. unfold co_partial_fit, cond_partial_fit. cbn [co_vol co_corr co_cond].
      destruct (as_rows X) as [rows|e]; [|cbn; eauto].
      destruct (rows_retag tv tv' tc tc' rows c s E) as [R1 R2]. rewrite R1. destruct (cond_rows (vol_of_estimator tv) tc c rows). cbn [fst snd] in *. split; [reflexivity|]. split; [exact R2|reflexivity]. }
    destruct D as (D1 & D2 & D3). destruct (do_ccall o (CPartialFit Cv C X)) as [o1 r1], (do_ccall o' (CPartialFit Cv C X)) as [o2 r2]. cbn [fst snd] in *. subst r2.
    destruct (IH o1 o2 D2 D3) as [I1 I2]. destruct (crun o1 _), (crun o2 _). cbn [fst snd] in *. subst. now split. }
  destruct (K o o' E) as [K1 K2]; [reflexivity|]. split; [exact K1|].
  rewrite K2. repeat split; reflexivity.
Qed.

(** ** What raises on an unfitted instance *)
Theorem C100_unfitted {N : Num} (L : LinAlg N) {V : VolModel N} {C : EstClass N} (c : cond V C) X rows : cond_n_samples V c = 0 -> as_rows X = Ok rows ->
  cond_correlation c = Err NotFittedError /\ cond_precision L c = Err NotFittedError /\ cond_mahalanobis L c X = Err NotFittedError /\ cond_score L c X = Err NotFittedError.
Proof.
  intros H E. assert (F : cond_covariance V c = Err NotFittedError).
  { unfold cond_n_samples, cond_covariance, cond_fitted in *. destruct (cd_state c) as [s|]; [|reflexivity]. rewrite H. reflexivity. }
  unfold cond_mahalanobis, cond_score, cond_correlation, cond_precision. rewrite F, E. now repeat split.
Qed.
(** ... and the next successful [fit] is that of a new instance with the new templates. *)
Theorem C100_fit_uses_new_templates {N : Num} {Cv C : EstClass N} (o o1 : cobj Cv C) (t : inst Cv) (t' : inst C) d rows :
  rows_of_length d rows -> rows <> [] ->
  (co_fit (co_set_corr (co_set_vol o t) t') (In2 rows) = (o1, Ok tt) <-> co_partial_fit (co_new t t') (In2 rows) = (o1, Ok tt)).
Proof.
  intros Hr Hn. unfold co_fit, co_partial_fit. cbn [co_set_corr co_set_vol co_new co_vol co_corr co_cond].
  match goal with |- context [cond_fit ?V ?t0 ?c0 _] => pose proof (proj2 (C48_fit_forgets V t0 c0 d rows Hr Hn)) as K; destruct (cond_fit V t0 c0 (In2 rows)) as [a ra] end.
  match goal with |- context [cond_partial_fit ?V ?t0 ?c0 ?x] => destruct (cond_partial_fit V t0 c0 x) as [b rb] end.
  split; intros E; apply pair_equal_spec in E; destruct E as [<- ->].
  - specialize (proj1 (K a) eq_refl). intros E. injection E as -> ->. reflexivity.
  - specialize (proj2 (K b) eq_refl). intros E. injection E as -> ->. reflexivity.
Qed.

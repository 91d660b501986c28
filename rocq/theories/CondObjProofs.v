(** * ConditionalCovariance: bisimulation between two copies with related sub-models (law-free) *)
From Coq Require Import ZArith Bool String List Lia Arith.
From Verif Require Import Num Numpy PyVal LinalgModel StateModel BaseModel Estimators RegistryModel Spec ListLemmas BaseProofs
  Shapes ClassShapes BlockShapes StreamProofs ConditionalModel ConditionalProofs CondObjModel CondObjSpec.
Import ListNotations.

Definition ropt2 {A B} (R : A -> B -> Prop) (a : option A) (b : option B) : Prop :=
  match a, b with Some x, Some y => R x y | None, None => True | _, _ => False end.
Definition rres {A B} (R : A -> B -> Prop) (a : res A) (b : res B) : Prop :=
  match a, b with Ok x, Ok y => R x y | Err e, Err e' => e = e' | _, _ => False end.

Lemma mapM_rel {A A' B} (R : A -> A' -> Prop) (f : A -> res B) (f' : A' -> res B) l l' :
  (forall a b, R a b -> f a = f' b) -> Forall2 R l l' -> mapM f l = mapM f' l'.
Proof. intros H F. induction F as [|a b l l' Hab F IH]; cbn [mapM]; [reflexivity|]. now rewrite (H a b Hab), IH. Qed.
Lemma mapM_rres {A B B'} (R : B -> B' -> Prop) (f : A -> res B) (f' : A -> res B') l :
  (forall a, rres R (f a) (f' a)) -> rres (Forall2 R) (mapM f l) (mapM f' l).
Proof.
  intros H. induction l as [|a l IH]; cbn [mapM]; [constructor|]. specialize (H a).
  destruct (f a), (f' a); cbn in *; try contradiction; [|assumption].
  destruct (mapM f l), (mapM f' l); cbn in *; try contradiction; [now constructor|assumption].
Qed.

Section Rel.
  Context {N : Num} {V V' : VolModel N} (Rv : vm_St V -> vm_St V' -> Prop).
  Record vol_rel : Prop := {
    vr_make : rres Rv (vm_make V) (vm_make V');
    vr_mean : forall s s', Rv s s' -> vm_mean V s = vm_mean V' s';
    vr_var : forall s s', Rv s s' -> vm_var V s = vm_var V' s';
    vr_push : forall s s' y, Rv s s' -> snd (vm_push V s y) = snd (vm_push V' s' y) /\ Rv (fst (vm_push V s y)) (fst (vm_push V' s' y)) }.
  Context (HV : vol_rel).
  Context {C : EstClass N} (wf : nat -> c_St C -> Prop) (R : c_St C -> c_St C -> Prop) (HB : behaved_by C wf R).
  Context (corr corr' : inst C) (Hc : i_params corr = i_params corr').

  Definition crel (c : cond V C) (c' : cond V' C) : Prop :=
    cd_nfeat c = cd_nfeat c' /\ cd_state c = cd_state c' /\ ropt2 (Forall2 Rv) (cd_vols c) (cd_vols c') /\ ropt2 (sim' R) (cd_corr c) (cd_corr c').

  Ltac crl := split; [try assumption; try reflexivity|split; [try assumption; try reflexivity|split; [try assumption|try assumption]]].
  Lemma means_rel vs vs' : Forall2 Rv vs vs' -> means V vs = means V' vs'.
  Proof. apply mapM_rel. apply (vr_mean HV). Qed.
  Lemma variances_rel vs vs' : Forall2 Rv vs vs' -> variances V vs = variances V' vs'.
  Proof. apply mapM_rel. intros a b H. now rewrite (vr_var HV a b H). Qed.
  Lemma push_all_rel vs vs' x : Forall2 Rv vs vs' ->
    snd (push_all V vs x) = snd (push_all V' vs' x) /\ Forall2 Rv (fst (push_all V vs x)) (fst (push_all V' vs' x)).
  Proof.
    intros F. revert x. induction F as [|a b l l' Hab F IH]; intros x; cbn [push_all]; [split; constructor|].
    destruct x as [|y x]; [split; [reflexivity|now constructor]|].
    destruct (vr_push HV a b y Hab) as [E1 E2].
    destruct (vm_push V a y) as [a1 [u|e]], (vm_push V' b y) as [b1 [u'|e']]; cbn [fst snd] in *; try discriminate.
    - specialize (IH x). destruct (push_all V l x), (push_all V' l' x). cbn [fst snd] in *. destruct IH. split; [assumption|now constructor].
    - split; [assumption|now constructor].
  Qed.
  Lemma sim'_refl (t : inst C) : sim' R t t.
  Proof. split; [reflexivity|]. split; [|reflexivity]. unfold ropt'. destruct (i_state t); [right; reflexivity|exact I]. Qed.
  Lemma start_rel c c' x : crel c c' ->
    snd (cond_start V corr c x) = snd (cond_start V' corr' c' x) /\ crel (fst (cond_start V corr c x)) (fst (cond_start V' corr' c' x)).
  Proof.
    intros (H1 & H2 & H3 & H4). unfold cond_start. rewrite <- H2. destruct (cd_state c) as [s|] eqn:Es.
    - split; [reflexivity|]. cbn [fst]. crl. cbn. now rewrite Es.
    - pose proof (mapM_rres Rv (fun _ => vm_make V) (fun _ => vm_make V') (seq 0 (length x)) (fun _ => vr_make HV)) as K.
      destruct (mapM (fun _ => vm_make V) _), (mapM (fun _ => vm_make V') _); cbn in K; try contradiction; cbn [fst snd].
      + split; [reflexivity|]. split; [reflexivity|]. split; [reflexivity|]. split; [exact K|]. cbn. unfold clone. rewrite Hc. apply sim'_refl.
      + subst. split; [reflexivity|]. split; [reflexivity|]. split; [reflexivity|]. split; assumption.
  Qed.
  Lemma step_rel c c' x : crel c c' ->
    snd (cond_step V c x) = snd (cond_step V' c' x) /\ crel (fst (cond_step V c x)) (fst (cond_step V' c' x)).
  Proof.
    destruct c as [nf st vs cm], c' as [nf' st' vs' cm']. intros (H1 & H2 & H3 & H4). cbn in H1, H2, H3, H4. subst nf' st'.
    unfold cond_step. cbn [cd_state cd_vols cd_corr cd_nfeat].
    destruct st as [s|]; [|split; [reflexivity|crl]].
    destruct vs as [vs|], vs' as [vs'|]; try contradiction; [|split; [reflexivity|crl]].
    destruct cm as [cm|], cm' as [cm'|]; try contradiction; [|split; [reflexivity|crl]].
    cbn in H3, H4. rewrite <- (means_rel vs vs' H3), <- (variances_rel vs vs' H3).
    destruct (bind (means V vs) _) as [eps|e]; [|split; [reflexivity|crl]].
    destruct (do_call_sim wf R HB cm cm' (PartialFit C (In1 eps)) H4) as [E1 E2]. cbn [do_call] in E1, E2.
    destruct (partial_fit cm (In1 eps)) as [cm1 [u|e]], (partial_fit cm' (In1 eps)) as [cm1' [u'|e']]; cbn [fst snd] in E1, E2; try discriminate;
      [|split; [assumption|crl]].
    destruct (push_all_rel vs vs' x H3) as [E3 E4].
    destruct (push_all V vs x) as [w [u1|e]], (push_all V' vs' x) as [w' [u1'|e']]; cbn [fst snd] in E3, E4; try discriminate;
      [|split; [assumption|crl]].
    rewrite <- (means_rel w w' E4), <- (variances_rel w w' E4).
    destruct (means V w) as [mean|e]; [|split; [reflexivity|crl]].
    destruct (variances V w) as [var|e]; (split; [reflexivity|crl]).
  Qed.
  Lemma rows_rel rows c c' : crel c c' ->
    snd (cond_rows V corr c rows) = snd (cond_rows V' corr' c' rows) /\ crel (fst (cond_rows V corr c rows)) (fst (cond_rows V' corr' c' rows)).
  Proof.
    revert c c'; induction rows as [|x rows IH]; intros c c' H; cbn [cond_rows]; [auto|]. unfold cond_row.
    destruct (start_rel c c' x H) as [E1 E2].
    destruct (cond_start V corr c x) as [c1 [u|e]], (cond_start V' corr' c' x) as [c1' [u'|e']]; cbn [fst snd] in E1, E2; try discriminate; [|now split].
    destruct (step_rel c1 c1' x E2) as [E3 E4].
    destruct (cond_step V c1 x) as [c2 [u2|e]], (cond_step V' c1' x) as [c2' [u2'|e']]; cbn [fst snd] in E3, E4; try discriminate; [|now split].
    now apply IH.
  Qed.
  Lemma pf_rel X c c' : crel c c' ->
    snd (cond_partial_fit V corr c X) = snd (cond_partial_fit V' corr' c' X) /\ crel (fst (cond_partial_fit V corr c X)) (fst (cond_partial_fit V' corr' c' X)).
  Proof. intros H. unfold cond_partial_fit. destruct (as_rows X); [now apply rows_rel|now split]. Qed.
  Lemma cfit_rel X c c' : crel c c' ->
    snd (cond_fit V corr c X) = snd (cond_fit V' corr' c' X) /\ crel (fst (cond_fit V corr c X)) (fst (cond_fit V' corr' c' X)).
  Proof.
    intros (H1 & H2 & H3 & H4). unfold cond_fit.
    destruct X as [v|rows|k]; try (split; [reflexivity|crl]). apply pf_rel. crl.
  Qed.
  Lemma crel_same (L : LinAlg N) c c' : crel c c' -> same_cond L c c'.
  Proof.
    intros (H1 & H2 & H3 & H4).
    assert (F : cond_fitted V c = cond_fitted V' c') by (unfold cond_fitted; now rewrite H2).
    assert (Lo : cond_location V c = cond_location V' c') by (unfold cond_location; now rewrite F).
    assert (Co : cond_covariance V c = cond_covariance V' c').
    { unfold cond_covariance. rewrite <- F. destruct (cond_fitted V c); cbn [bind]; [|reflexivity].
      destruct (cd_corr c) as [cm|], (cd_corr c') as [cm'|]; cbn in H4; try contradiction; cbn [bind]; [|reflexivity].
      destruct (sim_same_fitted wf R HB L cm cm' H4) as (_ & _ & _ & K & _). now rewrite K. }
    assert (Pr : cond_precision L c = cond_precision L c') by (unfold cond_precision; now rewrite Co).
    assert (Ma : forall X, cond_mahalanobis L c X = cond_mahalanobis L c' X) by (intros X; unfold cond_mahalanobis; now rewrite Pr, Lo).
    split; [unfold cond_n_samples; now rewrite H2|]. split; [assumption|]. split; [assumption|]. split; [assumption|].
    split; [unfold cond_correlation; now rewrite Co|]. split; [assumption|]. split; [assumption|].
    intros X. unfold cond_score. destruct (as_rows X); cbn [bind]; [|reflexivity]. rewrite Pr. destruct (cond_precision L c'); cbn [bind]; [|reflexivity].
    destruct (la_slogdet L _) as [[sg ld]|]; cbn [bind]; [|reflexivity]. now rewrite Ma.
  Qed.
End Rel.

(** ** Volatility models that are estimators *)
Section Est.
  Context {N : Num} {Cv : EstClass N} (wf : nat -> c_St Cv -> Prop) (R : c_St Cv -> c_St Cv -> Prop) (HB : behaved_by Cv wf R).
  Lemma est_vol_rel (L : LinAlg N) (t t' : inst Cv) : i_params t = i_params t' ->
    vol_rel (V := vol_of_estimator t) (V' := vol_of_estimator t') (sim' R).
  Proof.
    intros H. split.
    - cbn. unfold clone. rewrite H. apply sim'_refl.
    - intros s s' E. destruct (sim_same_fitted wf R HB L s s' E) as (K1 & K2 & _). cbn. unfold pv_mean. now rewrite K1, K2.
    - intros s s' E. destruct (sim_same_fitted wf R HB L s s' E) as (K1 & _ & K3 & _). cbn. unfold pv_var. now rewrite K1, K3.
    - intros s s' y E. exact (do_call_sim wf R HB s s' (PartialFit Cv (In1 [y])) E).
  Qed.
End Est.

Section Pickle.
  Context {N : Num} {C : EstClass N} (wf : nat -> c_St C -> Prop) (R : c_St C -> c_St C -> Prop) (HB : behaved_by C wf R).
  Lemma sim_sim' (o o' : inst C) : sim R o o' -> sim' R o o'.
  Proof. intros (H1 & H2 & H3). split; [assumption|]. split; [|assumption]. unfold ropt', ropt, RE in *. destruct (i_state o), (i_state o'); auto. Qed.
  Lemma pickle_good p (o : inst C) : 1 <= p -> good wf p o -> exists o', pickle_est o = Ok o' /\ i_params o = i_params o' /\ sim' R o o'.
  Proof.
    intros Hp G. destruct (get_set_round wf R HB p o (i_params o) Hp G) as (j & o' & E1 & E2 & E3 & E4 & E5 & E6).
    unfold pickle_est, getstate. rewrite E1. cbn [bind]. unfold setstate. cbn [pk_params pk_state pk_nfeat pk_prev]. rewrite E2. cbn [bind].
    destruct (i_prev o) as [x|] eqn:Ep.
    - rewrite np_array_A1. cbn [bind]. eexists. split; [reflexivity|]. split; [now symmetry|]. apply sim_sim'. split; [now symmetry|]. split; [assumption|now rewrite Ep].
    - eexists. split; [reflexivity|]. split; [now symmetry|]. apply sim_sim'. split; [now symmetry|]. split; [assumption|now rewrite Ep].
  Qed.
  Lemma pickle_goods p (l : list (inst C)) : 1 <= p -> Forall (good wf p) l -> exists l', mapM pickle_est l = Ok l' /\ Forall2 (sim' R) l l'.
  Proof.
    intros Hp F. induction F as [|o l G F (l' & IH1 & IH2)]; [eexists; split; [reflexivity|constructor]|].
    destruct (pickle_good p o Hp G) as (o' & E & _ & S). exists (o' :: l'). cbn [mapM]. rewrite E, IH1. split; [reflexivity|now constructor].
  Qed.
  Lemma reachable_good (t : inst C) : reachable t -> exists q, 1 <= q /\ good wf q t.
  Proof. intros (P & q & cs & Hq & Hh & ->). exists q. split; [assumption|]. apply (run_good wf R HB); auto. apply new_good. Qed.
End Pickle.

(** ** What every reachable ConditionalCovariance keeps; [Gv] is an invariant of its volatility models *)
Section Inv.
  Context {N : Num} (V : VolModel N) (Gv : vm_St V -> Prop) {C : EstClass N}.
  Context (HM : forall s, vm_make V = Ok s -> Gv s) (HP : forall s y, Gv s -> Gv (fst (vm_push V s y))).
  Context (wf : nat -> c_St C -> Prop) (R : c_St C -> c_St C -> Prop) (HB : behaved_by C wf R).
  Context (p : nat) (Hp : 1 <= p).
  Definition cinv (vs : option (list (vm_St V))) (cm : option (inst C)) : Prop :=
    (forall l, vs = Some l -> length l = p /\ Forall Gv l) /\ (forall m, cm = Some m -> good wf p m).
  Variable (corr : inst C).
  Definition inv (c : cond V C) : Prop := cinv (cd_vols c) (cd_corr c).

  Lemma push_all_good (vs : list (vm_St V)) x : Forall Gv vs ->
    length (fst (push_all V vs x)) = length vs /\ Forall Gv (fst (push_all V vs x)).
  Proof.
    intros F. revert x. induction F as [|o l G F IH]; intros x; cbn [push_all]; [split; [reflexivity|constructor]|].
    destruct x as [|y x]; [split; [reflexivity|now constructor]|].
    pose proof (HP o y G) as G'. destruct (vm_push V o y) as [o1 [u|e]]; cbn [fst] in *.
    - specialize (IH x). destruct (push_all V l x) as [r q]. cbn [fst length] in *. destruct IH as [I1 I2]. split; [exact (f_equal S I1)|now constructor].
    - split; [reflexivity|now constructor].
  Qed.
  Lemma start_inv c x : length x = p -> inv c -> inv (fst (cond_start V corr c x)).
  Proof.
    intros Hx H. unfold cond_start. destruct (cd_state c); [exact H|].
    destruct (mapM _ _) as [vs|e] eqn:E; [|exact H]. cbn [fst]. split; cbn; intros l [= <-]; [|apply new_good].
    rewrite Hx in E. assert (K : forall n a l, mapM (fun _ : nat => vm_make V) (seq a n) = Ok l -> length l = n /\ Forall Gv l).
    { clear -HM. induction n as [|n IH]; intros a l; cbn; [intros [= <-]; auto|]. intros E. apply bind_ok in E. destruct E as (s & E0 & E). apply bind_ok in E. destruct E as (r & E & [= <-]).
      apply IH in E. destruct E as [E E']. split; [exact (f_equal S E)|]. constructor; [now apply HM|exact E']. }
    exact (K p _ _ E).
  Qed.
  Lemma step_inv c x : length x = p -> inv c -> inv (fst (cond_step V c x)).
  Proof.
    intros Hx H. unfold cond_step. destruct (cd_state c) as [s|]; [|exact H]. destruct (cd_vols c) as [vs|] eqn:Ev; [|exact H].
    destruct (cd_corr c) as [cm|] eqn:Ec; [|exact H].
    destruct H as [Hv Hm]. destruct (Hv vs Ev) as [Lv Hgv]. specialize (Hm cm Ec).
    destruct (bind (means V vs) _) as [eps|e] eqn:E.
    2: { cbn [fst]. split; [rewrite Ev; intros l [= <-]; auto|rewrite Ec; intros m [= <-]; auto]. }
    assert (Le : length eps = p).
    { apply bind_ok in E. destruct E as (m & E1 & E). apply bind_ok in E. destruct E as (v & E2 & E). apply bind_ok in E. destruct E as (e & E3 & E4).
      apply mapM_Forall2 in E1, E2. pose proof (eq_trans (eq_sym (Forall2_length _ _ _ E1)) Lv : length m = p) as L1. pose proof (eq_trans (eq_sym (Forall2_length _ _ _ E2)) Lv : length v = p) as L2. clear E1 E2.
      unfold vsub in E3. rewrite bc_eqlen in E3 by congruence. injection E3 as <-.
      assert (L3 : length (zipw nsub x m) = p) by (rewrite zipw_length; congruence).
      unfold vdiv in E4. rewrite bc_eqlen in E4 by (rewrite map_length; congruence). injection E4 as <-. rewrite zipw_length; rewrite ?map_length; congruence. }
    assert (Gc : good wf p (fst (partial_fit cm (In1 eps)))).
    { apply (fit_rows_good wf R HB p cm [eps]); auto. now constructor. }
    destruct (partial_fit cm (In1 eps)) as [cm1 [u|e]]; cbn [fst] in Gc.
    2: { cbn [fst]. split; cbn; [intros l [= <-]; auto|intros m [= <-]; auto]. }
    destruct (push_all_good vs x Hgv) as [L1 G1]. rewrite Lv in L1.
    destruct (push_all V vs x) as [w [u1|e]]; cbn [fst] in L1, G1; [destruct (means V w); [destruct (variances V w)|]|];
      cbn [fst]; (split; cbn; [intros l [= <-]; auto|intros m [= <-]; auto]).
  Qed.
  Lemma rows_inv rows c : rows_of_length p rows -> inv c -> inv (fst (cond_rows V corr c rows)).
  Proof.
    intros F. revert c. induction F as [|x rows Hx F IH]; intros c H; cbn [cond_rows]; [exact H|]. unfold cond_row.
    pose proof (start_inv c x Hx H) as H1. destruct (cond_start V corr c x) as [c1 [u|e]]; cbn [fst] in H1; [|exact H1].
    pose proof (step_inv c1 x Hx H1) as H2. destruct (cond_step V c1 x) as [c2 [u2|e]]; cbn [fst] in H2; [|exact H2]. now apply IH.
  Qed.
End Inv.

Lemma est_make_good {N : Num} {Cv : EstClass N} (wv : nat -> c_St Cv -> Prop) (tv : inst Cv) s : vm_make (vol_of_estimator tv) = Ok s -> good wv 1 s.
Proof. intros [= <-]. apply new_good. Qed.
Lemma est_push_good {N : Num} {Cv : EstClass N} (wv : nat -> c_St Cv -> Prop) Rv (HBv : behaved_by Cv wv Rv) (tv : inst Cv) s y :
  good wv 1 s -> good wv 1 (fst (vm_push (vol_of_estimator tv) s y)).
Proof. intros G. apply (fit_rows_good wv Rv HBv 1 s [[y]]); auto. now constructor. Qed.

Section Run.
  Context {N : Num} {Cv C : EstClass N} (wv : nat -> c_St Cv -> Prop) (Rv : c_St Cv -> c_St Cv -> Prop) (HBv : behaved_by Cv wv Rv).
  Context (wf : nat -> c_St C -> Prop) (R : c_St C -> c_St C -> Prop) (HB : behaved_by C wf R) (L : LinAlg N).
  Definition orel (o o' : cobj Cv C) : Prop :=
    i_params (co_vol o) = i_params (co_vol o') /\ i_params (co_corr o) = i_params (co_corr o') /\
    crel (V := vol_of_estimator (co_vol o)) (V' := vol_of_estimator (co_vol o')) (sim' Rv) R (co_cond o) (co_cond o').
  Lemma do_ccall_rel o o' c : orel o o' -> snd (do_ccall o c) = snd (do_ccall o' c) /\ orel (fst (do_ccall o c)) (fst (do_ccall o' c)).
  Proof.
    intros (H1 & H2 & H3). pose proof (est_vol_rel wv Rv HBv L _ _ H1) as HV.
    destruct c as [X|X|t|t]; cbn [do_ccall].
    - destruct (pf_rel _ HV wf R HB _ _ H2 X _ _ H3) as [E1 E2]. unfold co_partial_fit.
      destruct (cond_partial_fit _ _ (co_cond o) X), (cond_partial_fit _ _ (co_cond o') X). cbn [fst snd] in *. split; [assumption|]. split; [assumption|]. split; assumption.
    - destruct (cfit_rel _ HV wf R HB _ _ H2 X _ _ H3) as [E1 E2]. unfold co_fit.
      destruct (cond_fit _ _ (co_cond o) X), (cond_fit _ _ (co_cond o') X). cbn [fst snd] in *. split; [assumption|]. split; [assumption|]. split; assumption.
    - split; [reflexivity|]. split; [reflexivity|]. split; [assumption|exact H3].
    - split; [reflexivity|]. split; [assumption|]. split; [reflexivity|exact H3].
  Qed.
  Lemma crun_rel cs o o' : orel o o' -> snd (crun o cs) = snd (crun o' cs) /\ orel (fst (crun o cs)) (fst (crun o' cs)).
  Proof.
    revert o o'; induction cs as [|c cs IH]; intros o o' H; cbn [crun]; [now split|].
    destruct (do_ccall_rel o o' c H) as [E1 E2]. destruct (do_ccall o c) as [o1 r1], (do_ccall o' c) as [o2 r2]. cbn [fst snd] in E1, E2. subst r2.
    destruct (IH o1 o2 E2) as [E3 E4]. destruct (crun o1 cs), (crun o2 cs). cbn [fst snd] in *. subst. now split.
  Qed.
  Lemma orel_indist o o' : orel o o' -> cindistinguishable L o o'.
  Proof.
    intros H cs. destruct (crun_rel cs o o' H) as [E1 (_ & _ & E2)]. split; [assumption|]. exact (crel_same (V := vol_of_estimator _) (V' := vol_of_estimator _) (sim' Rv) wf R HB L _ _ E2).
  Qed.
  (** the invariant along a history, and pickling *)
  Definition oinv (p : nat) (o : cobj Cv C) : Prop :=
    (exists q, 1 <= q /\ good wv q (co_vol o)) /\ (exists q, 1 <= q /\ good wf q (co_corr o)) /\ cinv (vol_of_estimator (co_vol o)) (good wv 1) wf p (cd_vols (co_cond o)) (cd_corr (co_cond o)).
  Lemma crun_inv p cs o : 1 <= p -> chistory p cs -> oinv p o -> oinv p (fst (crun o cs)).
  Proof.
    intros Hp F. revert o. induction F as [|c cs Hc F IH]; intros o H; cbn [crun]; [exact H|].
    assert (K : oinv p (fst (do_ccall o c))).
    { destruct H as (H1 & H2 & H3). destruct c as [X|X|t|t]; cbn [do_ccall fst].
      - unfold co_partial_fit, cond_partial_fit. destruct (as_rows X) as [rows|]; [|split; [assumption|split; assumption]].
        pose proof (rows_inv (vol_of_estimator (co_vol o)) (good wv 1) (est_make_good wv (co_vol o)) (est_push_good wv Rv HBv (co_vol o)) wf R HB p Hp (co_corr o) rows (co_cond o) Hc H3) as K.
        destruct (cond_rows _ _ (co_cond o) rows). cbn [fst] in *. split; [assumption|split; assumption].
      - unfold co_fit, cond_fit. destruct X as [v|rows|n]; try (split; [assumption|split; assumption]).
        unfold cond_partial_fit. cbn [as_rows] in *.
        match goal with |- context[cond_rows _ _ ?c0 _] => pose proof (rows_inv (vol_of_estimator (co_vol o)) (good wv 1) (est_make_good wv (co_vol o)) (est_push_good wv Rv HBv (co_vol o)) wf R HB p Hp (co_corr o) rows c0 Hc H3) as K; destruct (cond_rows _ _ c0 rows) end.
        cbn [fst] in *. split; [assumption|split; assumption].
      - split; [now apply (reachable_good wv Rv HBv)|split; assumption].
      - split; [assumption|]. split; [now apply (reachable_good wf R HB)|assumption]. }
    destruct (do_ccall o c) as [o1 r1]. cbn [fst] in K. specialize (IH o1 K). now destruct (crun o1 cs).
  Qed.
  Lemma pickle_rel p o : 1 <= p -> oinv p o -> exists o', co_pickle o = Ok o' /\ orel o o'.
  Proof.
    intros Hp ((qv & Hqv & Gv) & (qc & Hqc & Gc) & (I1 & I2)).
    destruct (pickle_good wv Rv HBv qv _ Hqv Gv) as (tv & E1 & P1 & _). destruct (pickle_good wf R HB qc _ Hqc Gc) as (tc & E2 & P2 & _).
    unfold co_pickle, pickle_cond. rewrite E1, E2. cbn [bind].
    assert (exists vs, pickle_opt (mapM pickle_est) (cd_vols (co_cond o)) = Ok vs /\ ropt2 (Forall2 (sim' Rv)) (cd_vols (co_cond o)) vs) as (vs & E3 & S3).
    { destruct (cd_vols (co_cond o)) as [l|]; [|exists None; now split]. destruct (I1 l eq_refl) as [_ G].
      destruct (pickle_goods wv Rv HBv 1 l (le_n 1) G) as (l' & E & S). exists (Some l'). cbn [pickle_opt]. rewrite E. now split. }
    assert (exists cm, pickle_opt pickle_est (cd_corr (co_cond o)) = Ok cm /\ ropt2 (sim' R) (cd_corr (co_cond o)) cm) as (cm & E4 & S4).
    { destruct (cd_corr (co_cond o)) as [m|]; [|exists None; now split].
      destruct (pickle_good wf R HB p m Hp (I2 m eq_refl)) as (m' & E & _ & S). exists (Some m'). cbn [pickle_opt]. rewrite E. now split. }
    exists (mkCobj tv tc (mkCond (V := vol_of_estimator tv) (cd_nfeat (co_cond o)) (cd_state (co_cond o)) vs cm)). split.
    { match goal with |- context [pickle_opt ?f (cd_vols ?c)] => assert (E3' : pickle_opt f (cd_vols c) = Ok vs) by exact E3; rewrite E3' end.
      cbn [bind]. match goal with |- context [pickle_opt ?f (cd_corr ?c)] => assert (E4' : pickle_opt f (cd_corr c) = Ok cm) by exact E4; rewrite E4' end. reflexivity. }
    split; [exact P1|]. split; [exact P2|]. split; [reflexivity|]. split; [reflexivity|]. split; assumption.
  Qed.
End Run.

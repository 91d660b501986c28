(** * Facts about every registered class, by enumeration of the registry (law-free) *)
From Coq Require Import ZArith Bool String List Lia Arith.
From Verif Require Import Num Numpy PyVal LinalgModel StateModel BaseModel Estimators RegistryModel
  Spec ListLemmas BaseProofs Shapes ClassShapes BlockShapes StreamProofs.
Import ListNotations.
Local Open Scope string_scope.

(** LAPACK routines do not raise sklearn's NotFittedError.  (Contract.) *)
Definition nonf {A} (m : res A) : Prop := m <> Err NotFittedError.
Record la_quiet {N : Num} (L : LinAlg N) : Prop := {
  laq_inv : forall a, nonf (la_inv L a);
  laq_pinv : forall a, nonf (la_pinv L a);
  laq_eigh : forall a, nonf (la_eigh L a);
  laq_svd : forall a, nonf (la_svd L a);
  laq_cholesky : forall a, nonf (la_cholesky L a);
  laq_eigvals : forall a, nonf (la_eigvals_re L a);
  laq_solve : forall a b, nonf (la_solve L a b);
}.

Lemma nonf_ok {A} (a : A) : nonf (Ok a). Proof. discriminate. Qed.
Lemma nonf_bind {A B} (m : res A) (f : A -> res B) :
  nonf m -> (forall a, nonf (f a)) -> nonf (bind m f).
Proof. intros H1 H2. destruct m; simpl; auto. intros H. injection H as ->. now apply H1. Qed.
Lemma nonf_mapM {A B} (f : A -> res B) l : (forall a, nonf (f a)) -> nonf (mapM f l).
Proof. intros H. induction l; simpl; [apply nonf_ok|]. repeat (apply nonf_bind; auto; intros). apply nonf_ok. Qed.
Lemma nonf_zipM {A B D} (f : A -> B -> res D) l l' : (forall a b, nonf (f a b)) -> nonf (zipM f l l').
Proof.
  intros H. revert l'; induction l as [|a l IH]; intros [|b l']; simpl; try apply nonf_ok.
  repeat (apply nonf_bind; auto; intros). apply nonf_ok.
Qed.
Lemma nonf_foldM {A B} (f : A -> B -> res A) a l : (forall a b, nonf (f a b)) -> nonf (foldM f a l).
Proof. intros H. revert a; induction l as [|b l IH]; intros a; simpl; [apply nonf_ok|]. apply nonf_bind; auto. Qed.
Lemma nonf_bc {A B D} (f : A -> B -> D) a b : nonf (bc f a b).
Proof.
  unfold bc. destruct (Nat.eqb (length a) (length b)); [apply nonf_ok|].
  destruct a as [|x [|y a]], b as [|u [|v b]]; discriminate.
Qed.
Lemma nonf_bc_in {A B D} (f : A -> B -> res D) a b l :
  (forall x y, nonf (f x y)) -> bc f a b = Ok l -> Forall nonf l.
Proof.
  intros Hf. unfold bc. assert (M1 : forall x l, Forall nonf (map (f x) l)).
  { intros x l0. induction l0; constructor; auto. }
  assert (M2 : forall y l, Forall nonf (map (fun x => f x y) l)).
  { intros y l0. induction l0; constructor; auto. }
  assert (M3 : forall a b, Forall nonf (zipw f a b)).
  { intros a0. induction a0 as [|x a0 IH]; intros [|y b0]; simpl; constructor; auto. }
  destruct (Nat.eqb (length a) (length b)); [intros [= <-]; auto|].
  destruct a as [|x [|x' a]], b as [|u [|v b]]; intros H; try discriminate; injection H as <-; auto.
Qed.
Lemma nonf_bc2 {A B D} (f : A -> B -> D) a b : nonf (bc2 f a b).
Proof.
  unfold bc2. destruct (bc (bc f) a b) as [l|e] eqn:E; simpl.
  - pose proof (nonf_bc_in _ _ _ _ (fun x y => nonf_bc f x y) E) as H. clear E.
    induction H as [|m l Hm H IH]; simpl; [apply nonf_ok|]. apply nonf_bind; auto. intros.
    apply nonf_bind; auto. intros. apply nonf_ok.
  - intros H. injection H as ->. apply (nonf_bc (bc f) a b). exact E.
Qed.

Section Nonf.
  Context {N : Num} (L : LinAlg N) (HL : la_quiet L).

  Ltac nf1 :=
    match goal with
    | |- nonf (Ok _) => apply nonf_ok
    | |- nonf (Err _) => discriminate
    | |- nonf (bind _ _) => apply nonf_bind; intros
    | |- nonf (match ?x with _ => _ end) => destruct x
    | |- nonf (let _ := _ in _) => cbv zeta
    | |- nonf (vadd _ _) => apply nonf_bc
    | |- nonf (vsub _ _) => apply nonf_bc
    | |- nonf (vmul _ _) => apply nonf_bc
    | |- nonf (vdiv _ _) => apply nonf_bc
    | |- nonf (madd _ _) => apply nonf_bc2
    | |- nonf (msub _ _) => apply nonf_bc2
    | |- nonf (mmul _ _) => apply nonf_bc2
    | |- nonf (mdiv _ _) => apply nonf_bc2
    | |- nonf (matmul _ _) => unfold matmul
    | |- nonf (vdot _ _) => unfold vdot
    | |- nonf (vecmat _ _) => unfold vecmat
    | |- nonf (mapM _ _) => apply nonf_mapM; intros
    | |- nonf (zipM _ _ _) => apply nonf_zipM; intros
    | |- nonf (foldM _ _ _) => apply nonf_foldM; intros
    | |- nonf (getI _ _) => unfold getI
    | |- nonf (getN _ _) => unfold getN
    | |- nonf (getV _ _) => unfold getV
    | |- nonf (getM _ _) => unfold getM
    | |- nonf (getT _ _) => unfold getT
    | |- nonf (getN_default _ _ _) => unfold getN_default
    | |- nonf (check_shape _ _) => unfold check_shape
    | |- nonf (damp _ _ _ _) => unfold damp
    | |- nonf (zero_cross _ _ _) => unfold zero_cross
    | |- nonf (assemble _ _) => unfold assemble
    | |- nonf (block_id _ _) => unfold block_id
    | |- nonf (block_id1 _ _) => unfold block_id1
    | |- nonf (slices _ _) => unfold slices
    | |- nonf (split_sizes _ _) => unfold split_sizes
    | |- nonf (py_div _ _) => unfold py_div
    | |- nonf (vmin _) => unfold vmin
    | |- nonf (to_symmetric _) => unfold to_symmetric
    | |- nonf (cov_to_corrcoef _) => unfold cov_to_corrcoef
    | |- nonf (la_inv _ _) => apply (laq_inv _ HL)
    | |- nonf (la_pinv _ _) => apply (laq_pinv _ HL)
    | |- nonf (la_eigh _ _) => apply (laq_eigh _ HL)
    | |- nonf (la_svd _ _) => apply (laq_svd _ HL)
    | |- nonf (la_solve _ _ _) => apply (laq_solve _ HL)
    | |- nonf (la_eigvals_re _ _) => apply (laq_eigvals _ HL)
    end.
  Ltac nf := repeat nf1.

  Lemma nonf_posdef a : nonf (is_positive_def L a).
  Proof.
    unfold is_positive_def. pose proof (laq_cholesky L HL a) as H.
    destruct (la_cholesky L a) as [|[]]; try discriminate. exact (fun _ => H eq_refl).
  Qed.
  Lemma nonf_mpd a : nonf (make_pos_def L a).
  Proof. unfold make_pos_def. nf. Qed.
  Lemma nonf_geo a b g : nonf (geodesic_step L a b g).
  Proof.
    unfold geodesic_step. apply nonf_bind; [apply nonf_mpd|intros]. apply nonf_bind; [apply nonf_mpd|intros]. nf.
  Qed.
  Lemma nonf_npd fuel a : nonf (nearest_pos_def L fuel a).
  Proof.
    unfold nearest_pos_def. nf. apply nonf_posdef.
    enough (K : forall fuel k sp i m, nonf (npd_loop L fuel k sp i m)) by apply K.
    clear -HL. induction fuel as [|fuel IH]; intros k sp i m; simpl.
    - apply nonf_bind; [apply nonf_posdef|intros]. nf.
    - apply nonf_bind; [apply nonf_posdef|intros]. destruct a; nf. apply IH.
  Qed.

  Lemma registry_cov_nonf fuel k : In k (registry L fuel) ->
    forall P s, nonf (c_cov (rg_class k) P s).
  Proof.
    unfold registry. cbn [In]. intros H.
    repeat (destruct H as [<-|H]; [cbn [rg_class]|]); try contradiction; intros P s;
      cbn [c_cov Empirical Diagonal Block Ewa Adaptive LedoitWolf OAS Shrunk Schur SchurCond SchurLW
           PartialMoments Huber Tyler Geodesic DCC Factor dict_class].
    - unfold dict_cov; nf.
    - unfold diag_cov; nf.
    - unfold blk_cov, pd_block; nf. apply nonf_mpd.
    - unfold dict_cov; nf.
    - unfold dict_cov; nf.
    - unfold lw_cov; nf.
    - unfold oas_cov; nf.
    - unfold shr_cov; nf.
    - unfold sch_cov. nf; try apply nonf_geo; try apply nonf_mpd.
    - unfold sc_cov, sc_n_eff, sc_gamma_star, sc_block; nf; try apply nonf_mpd.
    - unfold slw_cov, slw_gamma; nf; apply nonf_mpd.
    - unfold pm_cov, sum_axis0. nf. apply nonf_npd.
    - unfold dict_cov; nf.
    - unfold tyl_cov; nf.
    - unfold dict_cov; nf.
    - unfold dcc_cov; nf.
    - unfold fac_cov, fac_acc; nf.
  Qed.
End Nonf.

(** ** The diff argument *)
Lemma registry_diff {N} (L : LinAlg N) fuel k : In k (registry L fuel) -> forall P,
  (forall b, c_diff (rg_class k) (rg_with_diff k P b) = b) /\
  same_hooks (C := rg_class k) (rg_with_diff k P true) (rg_with_diff k P false).
Proof.
  unfold registry. cbn [In]. intros H.
  repeat (destruct H as [<-|H]; [cbn [rg_class]|]); try contradiction; intros P;
    (split; [intros b; reflexivity|]); repeat split; auto.
  all: intros f Hf; cbn in Hf; try discriminate; try (injection Hf as <-); reflexivity.
Qed.

(** ** Shape mismatch *)
Lemma vsub_mismatch {N : Num} (x m : vec N) :
  length x <> length m -> length x <> 1 -> length m <> 1 -> vsub x m = Err ValueError.
Proof.
  intros H1 H2 H3. unfold vsub, bc. apply Nat.eqb_neq in H1. rewrite H1.
  destruct x as [|x [|x' xs]], m as [|m [|m' ms]]; simpl in *; try congruence; try reflexivity.
Qed.

Lemma registry_mismatch {N} (L : LinAlg N) fuel k : In k (registry L fuel) ->
  c_name (rg_class k) <> "BlockCovariance" ->
  forall P s (x v : vec N), c_mean (rg_class k) P s = Ok v ->
    length x <> length v -> length x <> 1 -> length v <> 1 ->
    exists e, c_update (rg_class k) P s x = Err e.
Proof.
  unfold registry. cbn [In]. intros H.
  repeat (destruct H as [<-|H]; [cbn [rg_class]|]); try contradiction; intros Hn P s x v Hv H1 H2 H3;
    try (exfalso; apply Hn; reflexivity);
    cbn [c_update c_mean Empirical Diagonal Block Ewa Adaptive LedoitWolf OAS Shrunk Schur SchurCond SchurLW
         PartialMoments Huber Tyler Geodesic DCC Factor dict_class] in *;
    unfold dict_mean in Hv;
    unfold diag_update, ewa_update, ada_update, lw_update, slw_update, pm_update, hub_update, tyl_update,
      geo_update, dcc_update, fac_update, emp_update;
    rewrite ?Hv; cbn [bind]; rewrite ?(vsub_mismatch x v H1 H2 H3); cbn [bind];
    repeat (cbn [bind] || match goal with
      | |- exists e, (if ?b then _ else _) = Err e => destruct b
      | |- exists e, bind (bind ?m ?f) ?g = Err e => destruct m
      | |- exists e, bind ?m _ = Err e => destruct m
      | |- exists e, Err _ = Err e => eexists; reflexivity
      end).
Qed.

(** ** Classes whose later behaviour does not read the constructor parameters *)
Definition params_frozen : list string :=
  [ "EmpiricalCovariance"; "DiagonalCovariance"; "BlockCovariance"; "EwaCovariance";
    "AdaptiveEwaCovariance"; "LedoitWolfCovariance"; "OASCovariance"; "PartialMomentsCovariance";
    "TylerCovariance"; "GeodesicEwaCovariance"; "DCCCovariance"; "FactorCovariance" ].

Lemma registry_frozen {N} (L : LinAlg N) fuel k : In k (registry L fuel) ->
  In (c_name (rg_class k)) params_frozen -> forall P P',
  (forall s x, c_update (rg_class k) P s x = c_update (rg_class k) P' s x) /\
  (forall s, c_cov (rg_class k) P s = c_cov (rg_class k) P' s) /\
  (forall s, c_mean (rg_class k) P s = c_mean (rg_class k) P' s) /\
  (forall f, c_prec (rg_class k) = Some f -> forall s, f P s = f P' s).
Proof.
  unfold registry, params_frozen. cbn [In]. intros H.
  repeat (destruct H as [<-|H]; [cbn [rg_class c_name Empirical Diagonal Block Ewa Adaptive LedoitWolf
    OAS Shrunk Schur SchurCond SchurLW PartialMoments Huber Tyler Geodesic DCC Factor dict_class]|]);
    try contradiction; intros Hn P P'.
  all: try (exfalso; repeat (destruct Hn as [Hn|Hn]; [discriminate Hn|]); exact Hn).
  all: repeat split; auto.
  all: intros f Hf; cbn in Hf; try discriminate; try (injection Hf as <-); reflexivity.
Qed.

Section Frozen.
  Context {N : Num} {C : EstClass N} (P P' : c_P C).
  Context (HF : (forall s x, c_update C P s x = c_update C P' s x) /\
    (forall s, c_cov C P s = c_cov C P' s) /\ (forall s, c_mean C P s = c_mean C P' s) /\
    (forall f, c_prec C = Some f -> forall s, f P s = f P' s)).
  Context (Hd : c_diff C P = c_diff C P').

  Definition fz (o o' : inst C) : Prop :=
    i_params o = P /\ i_params o' = P' /\ i_state o <> None /\ i_state o = i_state o' /\ i_prev o = i_prev o'.

  Lemma absorb_fz o o' x : fz o o' -> snd (absorb o x) = snd (absorb o' x) /\ fz (fst (absorb o x)) (fst (absorb o' x)).
  Proof.
    intros (H1 & H2 & H3 & H4 & H5). unfold absorb. rewrite <- H4.
    destruct (i_state o) as [s|] eqn:Es; [|congruence].
    rewrite H1, H2, (proj1 HF). destruct (c_update C P' s x); simpl; split; auto;
      repeat split; simpl; auto; congruence.
  Qed.
  Lemma fit_row_fz o o' x : fz o o' -> snd (fit_row o x) = snd (fit_row o' x) /\ fz (fst (fit_row o x)) (fst (fit_row o' x)).
  Proof.
    intros H. pose proof H as (H1 & H2 & H3 & H4 & H5). unfold fit_row. rewrite H1, H2, Hd, <- H5.
    destruct (c_diff C P'); [|now apply absorb_fz].
    destruct (i_prev o) as [pv|].
    - destruct (vsub x pv); [|simpl; auto]. apply absorb_fz. repeat split; simpl; auto.
    - simpl. repeat split; simpl; auto.
  Qed.
  Lemma fit_rows_fz o o' rows : fz o o' ->
    snd (fit_rows o rows) = snd (fit_rows o' rows) /\ fz (fst (fit_rows o rows)) (fst (fit_rows o' rows)).
  Proof.
    revert o o'; induction rows as [|x rows IH]; intros o o' H; simpl; auto.
    destruct (fit_row_fz o o' x H) as [E1 E2].
    destruct (fit_row o x) as [o1 r1], (fit_row o' x) as [o2 r2]. simpl in *. subst r2.
    destruct r1; simpl; auto.
  Qed.
  Lemma fz_fitted L o o' : fz o o' -> same_fitted L o o'.
  Proof.
    intros (H1 & H2 & H3 & H4 & H5). destruct HF as (F1 & F2 & F3 & F4).
    assert (F : fitted_state o = fitted_state o') by (unfold fitted_state; now rewrite H4).
    assert (Lc : location_ o = location_ o').
    { unfold location_. rewrite F, H1, H2. destruct (fitted_state o'); simpl; auto. }
    assert (Cv : covariance_ o = covariance_ o').
    { unfold covariance_. rewrite F, H1, H2. destruct (fitted_state o'); simpl; auto. now rewrite F2. }
    assert (Pr : precision_ L o = precision_ L o').
    { unfold precision_. destruct (c_prec C) eqn:E.
      - rewrite F, H1, H2. destruct (fitted_state o'); simpl; auto.
      - now rewrite Cv. }
    assert (Ma : forall X, mahalanobis L o X = mahalanobis L o' X).
    { intros X. unfold mahalanobis. now rewrite Pr, Lc. }
    repeat split; auto.
    - unfold n_samples_. now rewrite H4.
    - unfold correlation_. now rewrite Cv.
    - intros X. unfold score. destruct (as_rows X); simpl; auto. now rewrite Pr, Ma.
  Qed.
End Frozen.

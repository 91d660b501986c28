(** * Proofs about the streaming contract of the base class, for every class and every [Num] *)
From Coq Require Import ZArith Bool String List Lia Arith.
From Verif Require Import Num Numpy PyVal LinalgModel BaseModel Spec ListLemmas.
Import ListNotations.

Section Base.
  Context {N : Num} {C : EstClass N}.
  Implicit Types (o : inst C) (rows : list (vec N)).

  Lemma fit_rows_app o r1 r2 :
    fit_rows o (r1 ++ r2) =
    match fit_rows o r1 with
    | (o', Ok _) => fit_rows o' r2
    | (o', Err e) => (o', Err e)
    end.
  Proof.
    revert o; induction r1 as [|x r1 IH]; intros o; simpl; auto.
    destruct (fit_row o x) as [o' [u|e]]; auto.
  Qed.

  (** ** Indistinguishability only depends on params, state and prev *)
  Definition core_eq (o o' : inst C) : Prop :=
    i_params o = i_params o' /\ i_state o = i_state o' /\ i_prev o = i_prev o'.

  Lemma absorb_core o o' x :
    core_eq o o' -> snd (absorb o x) = snd (absorb o' x) /\ core_eq (fst (absorb o x)) (fst (absorb o' x)).
  Proof.
    destruct o as [P s nf pv], o' as [P' s' nf' pv']. intros (H1 & H2 & H3). simpl in *. subst.
    unfold absorb. cbn [i_state i_params i_nfeat i_prev].
    destruct s' as [s|].
    - destruct (c_update C P' s x); simpl; split; auto; repeat split; auto.
    - destruct (c_init C P' (length x)) as [s0|]; simpl; [|split; auto; repeat split; auto].
      destruct (c_update C P' s0 x); simpl; split; auto; repeat split; auto.
  Qed.

  Lemma fit_row_core o o' x :
    core_eq o o' -> snd (fit_row o x) = snd (fit_row o' x) /\ core_eq (fst (fit_row o x)) (fst (fit_row o' x)).
  Proof.
    intros H. pose proof H as (H1 & H2 & H3). unfold fit_row. rewrite <- H1, <- H3.
    destruct (c_diff C (i_params o)); [|now apply absorb_core].
    destruct (i_prev o) as [pv|].
    - destruct (vsub x pv); [|simpl; auto]. apply absorb_core. rewrite <- H2. repeat split; auto.
    - simpl. repeat split; auto.
  Qed.

  Lemma fit_rows_core o o' rows :
    core_eq o o' ->
    snd (fit_rows o rows) = snd (fit_rows o' rows) /\ core_eq (fst (fit_rows o rows)) (fst (fit_rows o' rows)).
  Proof.
    revert o o'; induction rows as [|x rows IH]; intros o o' H; simpl; auto.
    destruct (fit_row_core o o' x H) as [E1 E2].
    destruct (fit_row o x) as [o1 r1], (fit_row o' x) as [o2 r2]. simpl in *. subst r2.
    destruct r1; simpl; auto.
  Qed.

  Lemma partial_fit_core o o' X :
    core_eq o o' ->
    snd (partial_fit o X) = snd (partial_fit o' X) /\ core_eq (fst (partial_fit o X)) (fst (partial_fit o' X)).
  Proof.
    intros H. unfold partial_fit. destruct (as_rows X); simpl; auto. now apply fit_rows_core.
  Qed.

  Lemma fit_core o o' X :
    core_eq o o' -> snd (fit o X) = snd (fit o' X) /\ core_eq (fst (fit o X)) (fst (fit o' X)).
  Proof.
    intros (H1 & H2 & H3). unfold fit. rewrite H1.
    destruct X; try (simpl; split; auto; repeat split; auto; fail).
    apply partial_fit_core. repeat split; auto.
  Qed.

  Lemma do_call_core o o' c :
    core_eq o o' -> snd (do_call o c) = snd (do_call o' c) /\ core_eq (fst (do_call o c)) (fst (do_call o' c)).
  Proof.
    destruct c; simpl; intros H.
    - now apply partial_fit_core.
    - now apply fit_core.
    - destruct H as (H1 & H2 & H3). split; auto. repeat split; auto.
  Qed.

  Lemma run_core o o' cs :
    core_eq o o' -> snd (run o cs) = snd (run o' cs) /\ core_eq (fst (run o cs)) (fst (run o' cs)).
  Proof.
    revert o o'; induction cs as [|c cs IH]; intros o o' H; simpl; auto.
    destruct (do_call_core o o' c H) as [E1 E2].
    destruct (do_call o c) as [o1 r1], (do_call o' c) as [o2 r2]. simpl in E1, E2. subst r2.
    destruct (IH o1 o2 E2) as [E3 E4].
    destruct (run o1 cs) as [o3 r3], (run o2 cs) as [o4 r4]. simpl in *. subst. auto.
  Qed.

  Lemma core_eq_same_fitted L o o' : core_eq o o' -> same_fitted L o o'.
  Proof.
    intros (H1 & H2 & H3).
    assert (F : fitted_state o = fitted_state o') by (unfold fitted_state; now rewrite H2).
    assert (Lc : location_ o = location_ o') by (unfold location_; now rewrite F, H1).
    assert (Cv : covariance_ o = covariance_ o') by (unfold covariance_; now rewrite F, H1).
    assert (Pr : precision_ L o = precision_ L o').
    { unfold precision_. rewrite F, Cv, H1. reflexivity. }
    assert (Ma : forall X, mahalanobis L o X = mahalanobis L o' X).
    { intros X. unfold mahalanobis. now rewrite Pr, Lc. }
    repeat split; auto.
    - unfold n_samples_. now rewrite H2.
    - unfold correlation_. now rewrite Cv.
    - intros X. unfold score. destruct (as_rows X); simpl; auto. now rewrite Pr, Ma.
  Qed.

  Lemma core_eq_indist L o o' : core_eq o o' -> indistinguishable L o o'.
  Proof.
    intros H cs. destruct (run_core o o' cs H). split; auto. now apply core_eq_same_fitted.
  Qed.

  (** ** fit forgets *)
  Lemma fit_forgets L o rows :
    snd (fit o (In2 rows)) = snd (partial_fit (new (i_params o)) (In2 rows)) /\
    indistinguishable L (fst (fit o (In2 rows))) (fst (partial_fit (new (i_params o)) (In2 rows))).
  Proof.
    unfold fit. edestruct partial_fit_core as [E1 E2]; [|split; [exact E1|apply core_eq_indist; exact E2]].
    repeat split; auto.
  Qed.

  (** ** The shape of a run on a fresh instance *)
  Fixpoint foldU (P : c_P C) (s : c_St C) rows : c_St C * res unit :=
    match rows with
    | [] => (s, Ok tt)
    | x :: r => match c_update C P s x with Ok s' => foldU P s' r | Err e => (s, Err e) end
    end.

  Lemma fit_rows_foldU P s nf pv rows :
    c_diff C P = false ->
    fit_rows (mkInst P (Some s) nf pv) rows =
    (mkInst P (Some (fst (foldU P s rows))) nf pv, snd (foldU P s rows)).
  Proof.
    intros Hd. revert s; induction rows as [|x rows IH]; intros s; simpl; auto.
    unfold fit_row. cbn [i_params]. rewrite Hd. unfold absorb. cbn [i_state i_params i_nfeat i_prev].
    destruct (c_update C P s x) as [s'|e]; simpl; auto.
  Qed.

  Lemma partial_fit_new P rows (x0 : vec N) s0 :
    c_diff C P = false -> c_init C P (length x0) = Ok s0 ->
    fit_rows (new P) (x0 :: rows) =
    (mkInst P (Some (fst (foldU P s0 (x0 :: rows)))) (Some (length x0)) None, snd (foldU P s0 (x0 :: rows))).
  Proof.
    intros Hd Hi. simpl. unfold fit_row, new, absorb. cbn [i_params i_state i_nfeat i_prev].
    rewrite Hd, Hi. destruct (c_update C P s0 x0) as [s1|e]; simpl; auto.
    apply fit_rows_foldU; auto.
  Qed.

  Lemma foldU_app P s r1 r2 :
    foldU P s (r1 ++ r2) =
    match foldU P s r1 with (s', Ok _) => foldU P s' r2 | (s', Err e) => (s', Err e) end.
  Proof.
    revert s; induction r1 as [|x r IH]; intros s; simpl; auto. destruct (c_update C P s x); auto.
  Qed.

  Lemma foldU_inv P (I : c_St C -> Prop) (OKx : vec N -> Prop) s rows :
    I s -> Forall OKx rows ->
    (forall s x s', I s -> OKx x -> c_update C P s x = Ok s' -> I s') ->
    I (fst (foldU P s rows)).
  Proof.
    intros Hs Hr Hstep. revert s Hs; induction Hr as [|x rows Hx Hr IH]; intros s Hs; simpl; auto.
    destruct (c_update C P s x) eqn:E; simpl; auto. apply IH. eapply Hstep; eauto.
  Qed.

  (** ** diff=True is differencing *)
  Definition same_hooks (P P' : c_P C) : Prop :=
    (forall n, c_init C P n = c_init C P' n) /\
    (forall s x, c_update C P s x = c_update C P' s x) /\
    (forall s, c_cov C P s = c_cov C P' s) /\ (forall s, c_mean C P s = c_mean C P' s) /\
    (forall f, c_prec C = Some f -> forall s, f P s = f P' s).

  Lemma absorb_hooks P P' s nf pv pv' x :
    same_hooks P P' ->
    let a := absorb (mkInst P s nf pv) x in
    let b := absorb (mkInst P' s nf pv') x in
    snd a = snd b /\ i_state (fst a) = i_state (fst b) /\ i_nfeat (fst a) = i_nfeat (fst b) /\
    i_prev (fst a) = pv /\ i_prev (fst b) = pv' /\ i_params (fst a) = P /\ i_params (fst b) = P'.
  Proof.
    intros (H1 & H2 & _). unfold absorb. cbn [i_state i_params i_nfeat i_prev].
    destruct s as [s|].
    - rewrite H2. destruct (c_update C P' s x); simpl; repeat split; auto.
    - rewrite H1. destruct (c_init C P' (length x)) as [c|e0]; simpl; [|repeat split; auto].
      rewrite H2. destruct (c_update C P' c x); simpl; repeat split; auto.
  Qed.

  Lemma vsub_eqlen (a b : vec N) : length a = length b -> vsub a b = Ok (zipw nsub a b).
  Proof. intros. unfold vsub. now apply bc_eqlen. Qed.

  Lemma diff_sim P P' p (x0 : vec N) rows s nf :
    c_diff C P = true -> c_diff C P' = false -> same_hooks P P' ->
    length x0 = p -> rows_of_length p rows ->
    let a := fit_rows (mkInst P s nf (Some x0)) rows in
    let b := fit_rows (mkInst P' s nf None) (differences (x0 :: rows)) in
    snd a = snd b /\ i_state (fst a) = i_state (fst b) /\ i_nfeat (fst a) = i_nfeat (fst b) /\
    i_params (fst a) = P /\ i_params (fst b) = P'.
  Proof.
    intros Hd Hd' HH. revert x0 s nf. induction rows as [|x rows IH]; intros x0 s nf Hx0 Hr; [simpl; auto|].
    inversion Hr as [|? ? Hx Hr']; subst.
    change (differences (x0 :: x :: rows)) with (zipw nsub x x0 :: differences (x :: rows)).
    cbn [fit_rows]. unfold fit_row. cbn [i_params i_prev i_state i_nfeat]. rewrite Hd, Hd'.
    rewrite vsub_eqlen by congruence.
    pose proof (absorb_hooks P P' s nf (Some x) None (zipw nsub x x0) HH) as A. cbv zeta in A.
    destruct (absorb (mkInst P s nf (Some x)) (zipw nsub x x0)) as [[Pa sa na pa] ra].
    destruct (absorb (mkInst P' s nf None) (zipw nsub x x0)) as [[Pb sb nb pb] rb].
    simpl in A. destruct A as (E1 & E2 & E3 & E4 & E5 & E6 & E7). subst.
    destruct rb as [u|e]; simpl; auto.
    apply IH; auto.
  Qed.

  Lemma same_hooks_fitted L P P' s nf nf' pv pv' :
    same_hooks P P' -> same_fitted L (mkInst P s nf pv) (mkInst P' s nf' pv').
  Proof.
    intros (H1 & H2 & H3 & H4 & H5).
    set (o := mkInst P s nf pv). set (o' := mkInst P' s nf' pv').
    assert (F : fitted_state o = fitted_state o') by reflexivity.
    assert (Lc : location_ o = location_ o').
    { unfold location_. rewrite F. destruct (fitted_state o'); simpl; auto. }
    assert (Cv : covariance_ o = covariance_ o').
    { unfold covariance_. rewrite F. destruct (fitted_state o'); simpl; auto. now rewrite H3. }
    assert (Pr : precision_ L o = precision_ L o').
    { unfold precision_. destruct (c_prec C) eqn:E.
      - rewrite F. destruct (fitted_state o'); simpl; auto.
      - now rewrite Cv. }
    assert (Ma : forall X, mahalanobis L o X = mahalanobis L o' X).
    { intros X. unfold mahalanobis. now rewrite Pr, Lc. }
    repeat split; auto.
    - unfold correlation_. now rewrite Cv.
    - intros X. unfold score. destruct (as_rows X); simpl; auto. now rewrite Pr, Ma.
  Qed.

  Lemma differences_length rows : length (differences rows) = length rows - 1.
  Proof.
    induction rows as [|x rows IH]; auto. destruct rows as [|y rows]; auto.
    change (differences (x :: y :: rows)) with (zipw nsub y x :: differences (y :: rows)).
    cbn [length] in *. rewrite IH. lia.
  Qed.

  Lemma differences_rows p rows : rows_of_length p rows -> rows_of_length p (differences rows).
  Proof.
    induction rows as [|x rows IH]; intros H; [constructor|].
    inversion H as [|? ? Hx Hr]; subst. destruct rows as [|y rows]; [constructor|].
    inversion Hr as [|? ? Hy Hr']; subst.
    change (differences (x :: y :: rows)) with (zipw nsub y x :: differences (y :: rows)).
    constructor; [rewrite zipw_length; congruence|now apply IH].
  Qed.

  Lemma diff_is_differencing L P P' p rows :
    c_diff C P = true -> c_diff C P' = false -> same_hooks P P' -> rows_of_length p rows ->
    let a := partial_fit (new P) (In2 rows) in
    let b := partial_fit (new P') (In2 (differences rows)) in
    snd a = snd b /\ same_fitted L (fst a) (fst b).
  Proof.
    intros Hd Hd' HH Hr. unfold partial_fit. cbn [as_rows].
    destruct rows as [|x rows]; [simpl; split; auto; now apply same_hooks_fitted|].
    inversion Hr as [|? ? Hx Hr']; subst.
    assert (Ea : fit_rows (new P) (x :: rows) = fit_rows (mkInst P None None (Some x)) rows).
    { cbn [fit_rows]. unfold fit_row, new. cbn [i_params i_prev i_state i_nfeat]. now rewrite Hd. }
    rewrite Ea. change (new P') with (mkInst (C := C) P' None None None).
    generalize (diff_sim P P' (length x) x rows None None Hd Hd' HH eq_refl Hr'). cbv zeta.
    generalize (fit_rows (mkInst P None None (Some x)) rows).
    generalize (fit_rows (mkInst (C := C) P' None None None) (differences (x :: rows))).
    intros [[Pa sa na pa] ra] [[Pb sb nb pb] rb] A.
    simpl in A. destruct A as (E1 & E2 & E3 & E4 & E5). subst. split; auto.
    simpl. now apply same_hooks_fitted.
  Qed.

  Lemma diff_same_state P P' p rows :
    c_diff C P = true -> c_diff C P' = false -> same_hooks P P' -> rows_of_length p rows ->
    i_state (fst (partial_fit (new P) (In2 rows))) = i_state (fst (partial_fit (new P') (In2 (differences rows)))).
  Proof.
    intros Hd Hd' HH Hr. unfold partial_fit. cbn [as_rows].
    destruct rows as [|x rows]; [reflexivity|].
    inversion Hr as [|? ? Hx Hr']; subst.
    assert (Ea : fit_rows (new P) (x :: rows) = fit_rows (mkInst P None None (Some x)) rows).
    { cbn [fit_rows]. unfold fit_row, new. cbn [i_params i_prev i_state i_nfeat]. now rewrite Hd. }
    rewrite Ea. change (new P') with (mkInst (C := C) P' None None None).
    generalize (diff_sim P P' (length x) x rows None None Hd Hd' HH eq_refl Hr'). cbv zeta.
    generalize (fit_rows (mkInst P None None (Some x)) rows).
    generalize (fit_rows (mkInst (C := C) P' None None None) (differences (x :: rows))).
    intros [[Pa sa na pa] ra] [[Pb sb nb pb] rb] A.
    simpl in A. destruct A as (E1 & E2 & E3 & E4 & E5). now subst.
  Qed.

  (** ** Exceptions in the middle of a batch *)
  Lemma fit_rows_prefix o rows o' e :
    fit_rows o rows = (o', Err e) ->
    exists pre x post o1, rows = pre ++ x :: post /\ fit_rows o pre = (o1, Ok tt) /\
                          fit_row o1 x = (o', Err e).
  Proof.
    revert o; induction rows as [|x rows IH]; intros o H; simpl in H; [discriminate|].
    destruct (fit_row o x) as [o1 [[]|e1]] eqn:E.
    - destruct (IH _ H) as (pre & y & post & o2 & E1 & E2 & E3).
      exists (x :: pre), y, post, o2. subst. repeat split; auto. simpl. now rewrite E.
    - injection H as -> ->. exists [], x, rows, o. auto.
  Qed.

  Lemma fit_row_err_nodiff o x o' e :
    c_diff C (i_params o) = false -> i_state o <> None -> fit_row o x = (o', Err e) -> o' = o.
  Proof.
    intros Hd Hs H. unfold fit_row in H. rewrite Hd in H. unfold absorb in H.
    destruct (i_state o) as [c|]; [|congruence].
    destruct (c_update C (i_params o) c x); [discriminate|]. now injection H as -> _.
  Qed.
End Base.

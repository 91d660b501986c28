(** * Running a class on a finite stream: abstract states *)
From Coq Require Import Reals ZArith String List Lia Lra Arith Bool.
From Verif Require Import Num Numpy PyVal LinalgModel StateModel BaseModel Estimators
  Spec ListLemmas BaseProofs RMat Fin RealSpec.
Import ListNotations.
Local Open Scope R_scope.

(** [mk b] are constructor parameters with diff=b. *)
Definition diff_pair (C : EstClass NumX) (mk : bool -> c_P C) : Prop :=
  (forall b, c_diff C (mk b) = b) /\ same_hooks (mk true) (mk false).

(** partial_fit keeps the constructor parameters *)
Lemma fit_row_params {C : EstClass NumX} (o : inst C) x : i_params (fst (fit_row o x)) = i_params o.
Proof.
  assert (K : forall (o : inst C) x, i_params (fst (absorb o x)) = i_params o).
  { clear. intros o x. unfold absorb. destruct (i_state o).
    - destruct (c_update C _ _ _); reflexivity.
    - destruct (c_init C _ _); [|reflexivity]. cbn [i_params]. destruct (c_update C _ _ _); reflexivity. }
  unfold fit_row. destruct (c_diff C (i_params o)); auto. destruct (i_prev o) as [pv|]; [|reflexivity].
  destruct (vsub x pv); [|reflexivity]. apply (K (mkInst (i_params o) (i_state o) (i_nfeat o) (Some x))).
Qed.
Lemma partial_fit_params {C : EstClass NumX} (o : inst C) X o' u : partial_fit o X = (o', u) -> i_params o' = i_params o.
Proof.
  unfold partial_fit. destruct (as_rows X) as [rows|]; [|intros [= <- _]; reflexivity].
  revert o. induction rows as [|x rows IH]; intros o; cbn [fit_rows]; [intros [= <- _]; reflexivity|].
  pose proof (fit_row_params o x) as K. destruct (fit_row o x) as [o1 [[]|e]]; cbn [fst] in K.
  - intros H. rewrite <- K. now apply IH.
  - intros [= <- _]. exact K.
Qed.

Section Run.
  Context {C : EstClass NumX} (mk : bool -> c_P C) (HD : diff_pair C mk).
  Context {A : Type} (emb : A -> c_St C) (step : A -> obs -> A) (Inv : A -> Prop) (p : nat) (a0 : A).
  Context (H0 : c_init C (mk false) p = Ok (emb a0)) (I0 : Inv a0).
  Context (HS : forall a x, Inv a -> c_update C (mk false) (emb a) (fv p x) = Ok (emb (step a x)) /\ Inv (step a x)).

  Lemma foldU_abs xs a : Inv a ->
    foldU (C := C) (mk false) (emb a) (map (fv p) xs) = (emb (fold_left step xs a), Ok tt) /\
    Inv (fold_left step xs a).
  Proof.
    revert a; induction xs as [|x xs IH]; intros a Ha; simpl; auto.
    destruct (HS a x Ha) as [E I]. rewrite E. auto.
  Qed.

  Lemma run_abs_inv xs : Inv (fold_left step xs a0).
  Proof. apply foldU_abs; auto. Qed.

  Lemma run_abs xs diff rows : observes p diff rows xs -> xs <> [] ->
    exists o, partial_fit (new (mk diff)) (In2 rows) = (o, Ok tt) /\
      forall L, same_fitted L o (mkInst (mk false) (Some (emb (fold_left step xs a0))) (Some p) None).
  Proof.
    intros [Hr Ha] Hx. destruct HD as [D S].
    assert (E : partial_fit (new (mk false)) (In2 (map (fv p) xs)) =
                (mkInst (mk false) (Some (emb (fold_left step xs a0))) (Some p) None, Ok tt)).
    { unfold partial_fit. cbn [as_rows]. destruct xs as [|x xs]; [congruence|]. cbn [map].
      rewrite (partial_fit_new (mk false) (map (fv p) xs) (fv p x) (emb a0)); auto.
      - change (fv p x :: map (fv p) xs) with (map (fv p) (x :: xs)).
        destruct (foldU_abs (x :: xs) a0 I0) as [E _]. rewrite E. cbn [fst snd]. now rewrite fv_length.
      - now rewrite fv_length. }
    destruct diff.
    - cbn [absorbed] in Ha. destruct (diff_is_differencing (C := C) (mkLA NumX (fun _ => Err LinAlgError) (fun _ => Err LinAlgError) (fun _ => Err LinAlgError)
       (fun _ => Err LinAlgError) (fun _ => Err LinAlgError) (fun _ => Err LinAlgError)
       (fun _ _ => Err LinAlgError) (fun _ => Err LinAlgError) (fun x => x) (fun x _ => x) n0 n0) _ _ p rows (D true) (D false) S Hr) as [E1 _].
      destruct (partial_fit (new (mk true)) (In2 rows)) as [o u] eqn:Eo. exists o.
      cbn [fst snd] in E1. rewrite Ha, E in E1. cbn [snd] in E1. subst u. split; [reflexivity|].
      intros L.
      destruct (diff_is_differencing (C := C) L _ _ p rows (D true) (D false) S Hr) as [_ E2].
      rewrite Eo, Ha, E in E2. exact E2.
    - cbn [absorbed] in Ha. subst rows. eexists. split; [exact E|].
      intros L. repeat split; reflexivity.
  Qed.

  (** The fitted attributes of the run. *)
  Lemma run_reads xs diff rows n : observes p diff rows xs -> xs <> [] ->
    let s := emb (fold_left step xs a0) in
    c_nsamples C s = Ok (S n) ->
    exists o, partial_fit (new (mk diff)) (In2 rows) = (o, Ok tt) /\
      n_samples_ o = Ok (S n) /\
      location_ o = c_mean C (mk false) s /\
      covariance_ o = (c <- c_cov C (mk false) s ;; to_symmetric c) /\
      correlation_ o = (c <- covariance_ o ;; cov_to_corrcoef c) /\
      (forall L, c_prec C = None -> precision_ L o = (c <- covariance_ o ;; try_invert L c)) /\
      (forall L f, c_prec C = Some f -> precision_ L o = f (mk false) s).
  Proof.
    intros Ho Hx s Hn. destruct (run_abs xs diff rows Ho Hx) as (o & E & F). fold s in F.
    exists o. split; [exact E|].
    set (L0 := mkLA NumX (fun _ => Err LinAlgError) (fun _ => Err LinAlgError) (fun _ => Err LinAlgError)
       (fun _ => Err LinAlgError) (fun _ => Err LinAlgError) (fun _ => Err LinAlgError)
       (fun _ _ => Err LinAlgError) (fun _ => Err LinAlgError) (fun x => x) (fun x _ => x) n0 n0).
    destruct (F L0) as (F1 & F2 & F3 & _). rewrite F1, F2, F3.
    set (o' := mkInst (mk false) (Some s) (Some p) None).
    assert (Fs : fitted_state o' = Ok s).
    { unfold fitted_state, o'. cbn [i_state]. now rewrite Hn. }
    split; [exact Hn|]. split; [|split; [|split; [|split]]].
    - unfold location_. now rewrite Fs.
    - unfold covariance_. now rewrite Fs.
    - unfold correlation_. now rewrite F3.
    - intros L Hp. destruct (F L) as (_ & _ & _ & _ & F5 & _). rewrite F5. unfold precision_. now rewrite Hp.
    - intros L f Hp. destruct (F L) as (_ & _ & _ & _ & F5 & _). rewrite F5. unfold precision_.
      rewrite Hp. unfold o' in Fs. rewrite Fs. reflexivity.
  Qed.
End Run.

(** The same when the step is only known to succeed for the observations that actually come. *)
Section RunG.
  Context {C : EstClass NumX} (mk : bool -> c_P C) (HD : diff_pair C mk).
  Context {A : Type} (emb : A -> c_St C) (step : A -> obs -> A) (p : nat).
  Fixpoint good (a : A) (xs : list obs) : Prop :=
    match xs with
    | [] => True
    | x :: r => c_update C (mk false) (emb a) (fv p x) = Ok (emb (step a x)) /\ good (step a x) r
    end.
  Context (a0 : A) (H0 : c_init C (mk false) p = Ok (emb a0)).

  Lemma foldU_good xs a : good a xs ->
    foldU (C := C) (mk false) (emb a) (map (fv p) xs) = (emb (fold_left step xs a), Ok tt).
  Proof.
    revert a; induction xs as [|x xs IH]; intros a Ha; simpl; auto.
    destruct Ha as [E I]. rewrite E. auto.
  Qed.
  Lemma run_abs_g xs diff rows : observes p diff rows xs -> xs <> [] -> good a0 xs ->
    exists o, partial_fit (new (mk diff)) (In2 rows) = (o, Ok tt) /\
      i_state o = Some (emb (fold_left step xs a0)) /\
      forall L, same_fitted L o (mkInst (mk false) (Some (emb (fold_left step xs a0))) (Some p) None).
  Proof.
    intros [Hr Ha] Hx Hg. destruct HD as [D S].
    assert (E : partial_fit (new (mk false)) (In2 (map (fv p) xs)) =
                (mkInst (mk false) (Some (emb (fold_left step xs a0))) (Some p) None, Ok tt)).
    { unfold partial_fit. cbn [as_rows]. destruct xs as [|x xs]; [congruence|]. cbn [map].
      rewrite (partial_fit_new (mk false) (map (fv p) xs) (fv p x) (emb a0)); auto.
      - change (fv p x :: map (fv p) xs) with (map (fv p) (x :: xs)).
        rewrite (foldU_good (x :: xs) a0 Hg). cbn [fst snd]. now rewrite fv_length.
      - now rewrite fv_length. }
    destruct diff.
    - cbn [absorbed] in Ha. destruct (diff_is_differencing (C := C) (mkLA NumX (fun _ => Err LinAlgError) (fun _ => Err LinAlgError) (fun _ => Err LinAlgError)
       (fun _ => Err LinAlgError) (fun _ => Err LinAlgError) (fun _ => Err LinAlgError)
       (fun _ _ => Err LinAlgError) (fun _ => Err LinAlgError) (fun x => x) (fun x _ => x) n0 n0) _ _ p rows (D true) (D false) S Hr) as [E1 _].
      destruct (partial_fit (new (mk true)) (In2 rows)) as [o u] eqn:Eo. exists o.
      cbn [fst snd] in E1. rewrite Ha, E in E1. cbn [snd] in E1. subst u. split; [reflexivity|].
      split. { pose proof (diff_same_state (C := C) _ _ p rows (D true) (D false) S Hr) as E3. rewrite Eo, Ha, E in E3. exact E3. }
      intros L.
      destruct (diff_is_differencing (C := C) L _ _ p rows (D true) (D false) S Hr) as [_ E2].
      rewrite Eo, Ha, E in E2. exact E2.
    - cbn [absorbed] in Ha. subst rows. eexists. split; [exact E|]. split; [reflexivity|].
      intros L. repeat split; reflexivity.
  Qed.
  Lemma run_reads_g xs diff rows n : observes p diff rows xs -> xs <> [] -> good a0 xs ->
    let s := emb (fold_left step xs a0) in
    c_nsamples C s = Ok (S n) ->
    exists o, partial_fit (new (mk diff)) (In2 rows) = (o, Ok tt) /\
      i_state o = Some s /\ n_samples_ o = Ok (S n) /\
      location_ o = c_mean C (mk false) s /\
      covariance_ o = (c <- c_cov C (mk false) s ;; to_symmetric c) /\
      correlation_ o = (c <- covariance_ o ;; cov_to_corrcoef c) /\
      (forall L, same_fitted L o (mkInst (mk false) (Some s) (Some p) None)).
  Proof.
    intros Ho Hx Hg s Hn. destruct (run_abs_g xs diff rows Ho Hx Hg) as (o & E & Es & F). fold s in F, Es.
    exists o. split; [exact E|]. split; [exact Es|].
    set (L0 := mkLA NumX (fun _ => Err LinAlgError) (fun _ => Err LinAlgError) (fun _ => Err LinAlgError)
       (fun _ => Err LinAlgError) (fun _ => Err LinAlgError) (fun _ => Err LinAlgError)
       (fun _ _ => Err LinAlgError) (fun _ => Err LinAlgError) (fun x => x) (fun x _ => x) n0 n0).
    destruct (F L0) as (F1 & F2 & F3 & _). rewrite F1, F2, F3.
    set (o' := mkInst (mk false) (Some s) (Some p) None).
    assert (Fs : fitted_state o' = Ok s).
    { unfold fitted_state, o'. cbn [i_state]. now rewrite Hn. }
    split; [exact Hn|]. split; [|split; [|split; [|exact F]]].
    - unfold location_. now rewrite Fs.
    - unfold covariance_. now rewrite Fs.
    - unfold correlation_. now rewrite F3.
  Qed.
End RunG.

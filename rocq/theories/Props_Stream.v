(** * Properties C01-C11: the streaming contract, for every registered class and every scalar type

    Law-free: the theorems quantify over every [N : Num] (so also IEEE binary64 with its rounding) and
    over every LAPACK implementation [L] (under the stated shape / exception contracts).
    [k] ranges over the seventeen registered classes; [rg_with_diff k P b] are the constructor
    parameters [P] with [diff=b]. *)
From Coq Require Import ZArith Bool String List Lia Arith.
From Verif Require Import Num Numpy PyVal LinalgModel StateModel BaseModel Estimators RegistryModel
  Spec ListLemmas BaseProofs Shapes ClassShapes BlockShapes StreamProofs RegistryProofs.
Import ListNotations.
Local Open Scope string_scope.

(** A LAPACK that always fails meets the shape and exception contracts used here, so they are
    satisfiable for every scalar type (Contracts.v gives a working instance on the reals). *)
Definition la_fail (N : Num) : LinAlg N :=
  mkLA N (fun _ => Err LinAlgError) (fun _ => Err LinAlgError) (fun _ => Err LinAlgError)
       (fun _ => Err LinAlgError) (fun _ => Err LinAlgError) (fun _ => Err LinAlgError)
       (fun _ _ => Err LinAlgError) (fun _ => Err LinAlgError) (fun x => x) (fun x _ => x) n0 n0.
Lemma la_fail_shapes N : la_shapes (la_fail N).
Proof. split; simpl; auto. Qed.
Lemma la_fail_quiet N : la_quiet (la_fail N).
Proof. split; intros; discriminate. Qed.

(** ** C01 *)
Theorem C01_batch_and_stream_agree :
  forall (N : Num) (C : EstClass N) (o : inst C) (X Y : list (vec N)),
    partial_fit o (In2 (X ++ Y)) =
    match partial_fit o (In2 X) with
    | (o', Ok _) => partial_fit o' (In2 Y)
    | (o', Err e) => (o', Err e)
    end.
Proof. intros. apply fit_rows_app. Qed.

(** The rows fed one at a time as 1-d arrays, stopping at the first exception. *)
Fixpoint one_by_one {N} {C : EstClass N} (o : inst C) (rows : list (vec N)) : inst C * res unit :=
  match rows with
  | [] => (o, Ok tt)
  | x :: rest => match partial_fit o (In1 x) with
                 | (o', Ok _) => one_by_one o' rest
                 | (o', Err e) => (o', Err e)
                 end
  end.

Theorem C01_batch_is_rows_one_at_a_time :
  forall (N : Num) (C : EstClass N) (o : inst C) (rows : list (vec N)),
    partial_fit o (In2 rows) = one_by_one o rows.
Proof.
  intros N C o rows. revert o. induction rows as [|x rows IH]; intros o; [reflexivity|].
  cbn [one_by_one]. unfold partial_fit. cbn [as_rows fit_rows].
  destruct (fit_row o x) as [o1 [[]|e]]; [|reflexivity]. apply IH.
Qed.

(** When all the rows are accepted, so are the single calls of the history [feed rows]. *)
Theorem C01_accepted_batch_as_calls :
  forall (N : Num) (C : EstClass N) (o : inst C) (rows : list (vec N)),
    snd (partial_fit o (In2 rows)) = Ok tt ->
    run o (feed rows) = (fst (partial_fit o (In2 rows)), map (fun _ => Ok tt) rows).
Proof.
  intros N C o rows. revert o. induction rows as [|x rows IH]; intros o H; [reflexivity|].
  unfold feed. cbn [map run do_call]. unfold partial_fit in *. cbn [as_rows fit_rows] in *.
  destruct (fit_row o x) as [o1 [[]|e]]; [|discriminate]. fold (feed (C := C) rows). now rewrite IH.
Qed.

(** ** C02 *)
Theorem C02_fit_forgets :
  forall (N : Num) (L : LinAlg N) (C : EstClass N) (o : inst C) (rows : list (vec N)),
    let fitted := fit o (In2 rows) in
    let fresh := partial_fit (new (i_params o)) (In2 rows) in
    snd fitted = snd fresh /\ indistinguishable L (fst fitted) (fst fresh) /\
    (rows <> [] -> snd fitted = Ok tt -> c_diff C (i_params o) = false ->
     i_nfeat (fst fitted) = i_nfeat (fst fresh)).
Proof.
  intros N L C o rows. cbv zeta. split; [apply (fit_forgets L)|]. split; [apply fit_forgets|].
  intros Hr. destruct rows as [|x rows]; [congruence|]. clear Hr.
  unfold fit, partial_fit. cbn [as_rows fit_rows]. unfold fit_row, new. cbn [i_params i_prev].
  intros H1 H2. rewrite H2 in *. unfold absorb in *. cbn [i_state i_params i_prev i_nfeat] in *.
  destruct (c_init C (i_params o) (length x)) as [s0|]; [|reflexivity].
  destruct (c_update C (i_params o) s0 x); [|reflexivity].
  rewrite !fit_rows_foldU by auto. reflexivity.
Qed.

(** ** C03 *)
Theorem C03_diff_is_differencing :
  forall (N : Num) (L : LinAlg N) fuel k, In k (registry L fuel) ->
  forall P p rows, rows_of_length p rows ->
    let a := partial_fit (new (C := rg_class k) (rg_with_diff k P true)) (In2 rows) in
    let b := partial_fit (new (rg_with_diff k P false)) (In2 (differences rows)) in
    snd a = snd b /\ same_fitted L (fst a) (fst b) /\
    length (differences rows) = length rows - 1.
Proof.
  intros N L fuel k Hk P p rows Hr. cbv zeta. destruct (registry_diff L fuel k Hk P) as [D H].
  destruct (diff_is_differencing (C := rg_class k) L (rg_with_diff k P true) (rg_with_diff k P false) p rows
              (D true) (D false) H Hr) as [E1 E2].
  split; [exact E1|]. split; [exact E2|]. apply differences_length.
Qed.

(** The same when the caller feeds single observations and catches the exceptions: the outcome of the
    n-th observation under diff=True is the outcome of the (n-1)-st difference under diff=False. *)
Lemma diff_feed {N} {C : EstClass N} P P' p (x0 : vec N) rows s nf :
  c_diff C P = true -> c_diff C P' = false -> same_hooks P P' ->
  length x0 = p -> rows_of_length p rows ->
  let a := run (mkInst (C := C) P s nf (Some x0)) (feed rows) in
  let b := run (mkInst (C := C) P' s nf None) (feed (differences (x0 :: rows))) in
  snd a = snd b /\ i_state (fst a) = i_state (fst b) /\ i_params (fst a) = P /\ i_params (fst b) = P'.
Proof.
  intros Hd Hd' HH. revert x0 s nf. induction rows as [|x rows IH]; intros x0 s nf Hx0 Hr; [simpl; auto|].
  inversion Hr as [|? ? Hx Hr']; subst.
  change (differences (x0 :: x :: rows)) with (zipw nsub x x0 :: differences (x :: rows)).
  unfold feed. cbn [map run do_call]. fold (feed (C := C) rows) (feed (C := C) (differences (x :: rows))).
  unfold partial_fit. cbn [as_rows fit_rows].
  unfold fit_row. cbn [i_params i_prev i_state i_nfeat]. rewrite Hd, Hd'.
  rewrite vsub_eqlen by congruence.
  pose proof (absorb_hooks P P' s nf (Some x) None (zipw nsub x x0) HH) as A. cbv zeta in A.
  destruct (absorb (mkInst P s nf (Some x)) (zipw nsub x x0)) as [[Pa sa na pa] ra].
  destruct (absorb (mkInst P' s nf None) (zipw nsub x x0)) as [[Pb sb nb pb] rb].
  simpl in A. destruct A as (E1 & E2 & E3 & E4 & E5 & E6 & E7). subst.
  specialize (IH x sb nb Hx Hr'). cbv zeta in IH.
  revert IH. destruct rb as [[]|e];
  match goal with |- _ (run ?A ?B) (run ?A' ?B') -> _ => idtac | |- context [run ?A (feed rows)] =>
    generalize (run A (feed rows)) end;
  match goal with |- context [run ?A (feed ?D)] => generalize (run A (feed D)) end;
  intros [o1 r1] [o2 r2]; cbn [fst snd]; intros (I1 & I2 & I3 & I4); subst; auto.
Qed.

Theorem C03_diff_is_differencing_with_exceptions :
  forall (N : Num) (L : LinAlg N) fuel k, In k (registry L fuel) ->
  forall P p rows, rows_of_length p rows ->
    let a := run (new (C := rg_class k) (rg_with_diff k P true)) (feed rows) in
    let b := run (new (rg_with_diff k P false)) (feed (differences rows)) in
    tl (snd a) = snd b /\ same_fitted L (fst a) (fst b).
Proof.
  intros N L fuel k Hk P p rows Hr. cbv zeta. destruct (registry_diff L fuel k Hk P) as [D H].
  destruct rows as [|x rows]; [split; [reflexivity|]; simpl; now apply same_hooks_fitted|].
  inversion Hr as [|? ? Hx Hr']; subst.
  assert (E : run (new (C := rg_class k) (rg_with_diff k P true)) (feed (x :: rows)) =
    (let '(o, rs) := run (mkInst (C := rg_class k) (rg_with_diff k P true) None None (Some x)) (feed rows) in
     (o, Ok tt :: rs))).
  { unfold feed. cbn [map run do_call]. unfold partial_fit. cbn [as_rows fit_rows]. unfold fit_row, new.
    cbn [i_params i_prev i_state i_nfeat]. now rewrite (D true). }
  rewrite E. clear E.
  generalize (diff_feed (C := rg_class k) _ _ (length x) x rows None None (D true) (D false) H eq_refl Hr').
  cbv zeta. change (new (rg_with_diff k P false)) with (mkInst (C := rg_class k) (rg_with_diff k P false) None None None).
  generalize (run (mkInst (C := rg_class k) (rg_with_diff k P true) None None (Some x)) (feed rows)).
  generalize (run (mkInst (C := rg_class k) (rg_with_diff k P false) None None None) (feed (differences (x :: rows)))).
  intros [[Pa sa na pa] ra] [[Pb sb nb pb] rb] A. cbn [fst snd i_state i_params] in A.
  destruct A as (E1 & E2 & E3 & E4). subst. split; [reflexivity|]. cbn [fst]. now apply same_hooks_fitted.
Qed.

(** ** C04 *)
Theorem C04_checkpoint_and_resume :
  forall (N : Num) (L : LinAlg N), la_shapes L -> forall fuel k, In k (registry L fuel) ->
  forall P p (cs : list (call (rg_class k))),
    1 <= p -> c_diff (rg_class k) P = false -> history_of_length p cs -> never_diff cs ->
    let o := fst (run (new P) cs) in
    exists j o', get_state o = Ok j /\ set_state (new (i_params o)) j = Ok o' /\
                 indistinguishable L o o'.
Proof.
  intros N L HL fuel k Hk P p cs. destruct (registry_behaved L HL fuel k Hk) as (wf & R & HB).
  exact (checkpoint wf R HB L p P cs).
Qed.

(** ** C06 *)
Theorem C06_pickle_and_resume :
  forall (N : Num) (L : LinAlg N), la_shapes L -> forall fuel k, In k (registry L fuel) ->
  forall P p (cs : list (call (rg_class k))),
    1 <= p -> history_of_length p cs ->
    let o := fst (run (new P) cs) in
    exists d o', getstate o = Ok d /\ setstate d = Ok o' /\ i_nfeat o' = i_nfeat o /\
                 indistinguishable L o o'.
Proof.
  intros N L HL fuel k Hk P p cs. destruct (registry_behaved L HL fuel k Hk) as (wf & R & HB).
  exact (pickle_round wf R HB L p P cs).
Qed.

(** ** C05: refuted, and what happens instead *)
Theorem C05_checkpoint_diff_refuted :
  forall (N : Num) (a b c : N),
    let P := mkEmpP true in
    let o := fst (partial_fit (new (C := Empirical) P) (In2 [[a]; [b]])) in
    exists j o', get_state o = Ok j /\ set_state (new (C := Empirical) P) j = Ok o' /\
      n_samples_ (fst (partial_fit o (In1 [c]))) = Ok 2 /\
      n_samples_ (fst (partial_fit o' (In1 [c]))) = Ok 1.
Proof. intros N a b c. eexists _, _. repeat split; reflexivity. Qed.

(** The resumed estimator misses exactly the difference across the checkpoint. *)
Theorem C05_resumed_misses_one_difference :
  forall (N : Num) (L : LinAlg N), la_shapes L -> forall fuel k, In k (registry L fuel) ->
  forall P p before after,
    1 <= p -> rows_of_length p before -> rows_of_length p after ->
    let Pt := rg_with_diff k P true in
    let Pf := rg_with_diff k P false in
    snd (partial_fit (new (C := rg_class k) Pt) (In2 before)) = Ok tt ->
    let o := fst (partial_fit (new (C := rg_class k) Pt) (In2 before)) in
    exists j o', get_state o = Ok j /\ set_state (new Pt) j = Ok o' /\
      let resumed := partial_fit o' (In2 after) in
      let equivalent := partial_fit (new Pf) (In2 (differences before ++ differences after)%list) in
      snd resumed = snd equivalent /\ same_fitted L (fst resumed) (fst equivalent).
Proof.
  intros N L HL fuel k Hk P p before after Hp Hb Ha Pt Pf Hok o.
  destruct (registry_behaved L HL fuel k Hk) as (wf & R & HB).
  destruct (registry_diff L fuel k Hk P) as [D H]. fold Pt Pf in H.
  pose proof (D true) as Dt. pose proof (D false) as Df. fold Pt in Dt. fold Pf in Df.
  assert (G : good wf p o).
  { unfold o, partial_fit. cbn [as_rows]. apply (fit_rows_good wf R HB); auto using new_good. }
  destruct (get_set_round wf R HB p o Pt Hp G) as (j & o' & E1 & E2 & E3 & E4 & E5 & _).
  exists j, o'. split; [exact E1|]. split; [exact E2|]. cbv zeta.
  (* the diff=False companion of [o] *)
  assert (K : exists s nf, i_state o = s /\
     partial_fit (new (C := rg_class k) Pf) (In2 (differences before)) = (mkInst Pf s nf None, Ok tt)).
  { unfold o, partial_fit in *. cbn [as_rows] in *. destruct before as [|x before].
    - exists None, None. split; reflexivity.
    - inversion Hb as [|? ? Hx Hb']; subst.
      assert (Ea : fit_rows (new (C := rg_class k) Pt) (x :: before) = fit_rows (mkInst Pt None None (Some x)) before).
      { cbn [fit_rows]. unfold fit_row, new. cbn [i_params i_prev i_state i_nfeat]. now rewrite Dt. }
      generalize (diff_sim (C := rg_class k) Pt Pf (length x) x before None None Dt Df H eq_refl Hb'). cbv zeta.
      rewrite Ea in *.
      pose proof (fit_rows_quiet (C := rg_class k) (mkInst Pf None None None) (differences (x :: before))
                    (conj Df eq_refl)) as [_ Q]. revert Q.
      change (new Pf) with (mkInst (C := rg_class k) Pf None None None).
      destruct (fit_rows (mkInst (C := rg_class k) Pf None None None) (differences (x :: before))) as [[Pb sb nb pb] rb].
      revert Hok. destruct (fit_rows (mkInst Pt None None (Some x)) before) as [[Pa sa na pa] ra].
      cbn [fst snd i_prev i_state i_params i_nfeat]. intros -> -> (A1 & A2 & A3 & A4 & A5). subst.
      exists sb, nb. auto. }
  destruct K as (s & nf & Es & Ek).
  rewrite C01_batch_and_stream_agree, Ek.
  (* replace o' by an instance holding o's own state *)
  set (o2 := mkInst (C := rg_class k) Pt s nf None).
  assert (S2 : sim' R o2 o').
  { split; [|split]; cbn [i_params i_prev i_state o2]; auto.
    unfold ropt', ropt, RE in *. rewrite Es in E4. cbn [i_state]. destruct s, (i_state o'); auto. }
  destruct (fit_rows_sim wf R HB o2 o' after S2) as [S3 S4].
  apply (sim_same_fitted wf R HB L) in S4.
  unfold partial_fit. cbn [as_rows].
  assert (K : snd (fit_rows o2 after) = snd (fit_rows (mkInst Pf s nf None) (differences after)) /\
              same_fitted L (fst (fit_rows o2 after)) (fst (fit_rows (mkInst Pf s nf None) (differences after)))).
  { destruct after as [|y after]; [split; [reflexivity|]; cbn; now apply same_hooks_fitted|].
    inversion Ha as [|? ? Hy Ha']; subst.
    assert (Ea : fit_rows o2 (y :: after) = fit_rows (mkInst Pt (i_state o) nf (Some y)) after).
    { cbn [fit_rows]. unfold fit_row, o2. cbn [i_params i_prev i_state i_nfeat]. now rewrite Dt. }
    rewrite Ea.
    generalize (diff_sim (C := rg_class k) Pt Pf (length y) y after (i_state o) nf Dt Df H eq_refl Ha'). cbv zeta.
    destruct (fit_rows (mkInst Pf (i_state o) nf None) (differences (y :: after))) as [[Pb sb nb pb] rb].
    destruct (fit_rows (mkInst Pt (i_state o) nf (Some y)) after) as [[Pa sa na pa] ra].
    cbn [fst snd i_state i_params i_nfeat]. intros (A1 & A2 & A3 & A4 & A5). subst. split; auto.
    now apply same_hooks_fitted. }
  destruct K as [K1 K2]. split; [congruence|].
  destruct S4 as (s1 & s2 & s3 & s4 & s5 & s6 & s7), K2 as (t1 & t2 & t3 & t4 & t5 & t6 & t7).
  repeat split; try congruence; intros X; rewrite <- ?s6, <- ?s7; auto.
Qed.

(** set_state leaves the differencing baseline of its target alone: after restoring a checkpoint taken
    from the stream [before] into an instance that has itself consumed [seen] (its own earlier self after a
    rollback, say), the next row is differenced against the last row of [seen]. *)
Definition last_row {A} (rows : list A) : list A := match rev rows with [] => [] | z :: _ => [z] end.
Lemma absorb_prev {N : Num} {C : EstClass N} (o : inst C) x :
  i_prev (fst (absorb o x)) = i_prev o /\ i_params (fst (absorb o x)) = i_params o.
Proof.
  unfold absorb. destruct (i_state o).
  - destruct (c_update C (i_params o) c x); split; reflexivity.
  - destruct (c_init C (i_params o) (length x)); [|split; reflexivity]. destruct (c_update C (i_params o) a x); split; reflexivity.
Qed.
Lemma fit_rows_prev {N : Num} {C : EstClass N} rows : forall o : inst C, c_diff C (i_params o) = true ->
  snd (fit_rows o rows) = Ok tt ->
  i_params (fst (fit_rows o rows)) = i_params o /\
  i_prev (fst (fit_rows o rows)) = match rev rows with [] => i_prev o | z :: _ => Some z end.
Proof.
  induction rows as [|x rows IH]; intros o D; [split; reflexivity|]. cbn [fit_rows].
  assert (K : forall o1 r1, fit_row o x = (o1, r1) -> r1 = Ok tt -> i_params o1 = i_params o /\ i_prev o1 = Some x).
  { intros o1 r1. unfold fit_row. rewrite D. destruct (i_prev o) as [z|].
    - destruct (vsub x z) as [d|e]; [|intros [= <- <-]; discriminate].
      match goal with |- absorb ?a d = _ -> _ => pose proof (absorb_prev a d) as [P1 P2]; destruct (absorb a d) end.
      intros [= <- <-] _. cbn in *. auto.
    - intros [= <- <-] _. split; reflexivity. }
  destruct (fit_row o x) as [o1 [[]|e]] eqn:E; cbn [fst snd]; [|discriminate].
  destruct (K _ _ eq_refl eq_refl) as [K1 K2]. intros H. rewrite <- K1 in D. destruct (IH o1 D H) as [I1 I2].
  split; [congruence|]. rewrite I2. cbn [rev]. destruct (rev rows); cbn; auto.
Qed.
Theorem C05_set_state_keeps_baseline :
  forall (N : Num) (L : LinAlg N), la_shapes L -> forall fuel k, In k (registry L fuel) ->
  forall P p before seen after,
    1 <= p -> rows_of_length p before -> rows_of_length p seen -> rows_of_length p after ->
    let Pt := rg_with_diff k P true in
    let Pf := rg_with_diff k P false in
    snd (partial_fit (new (C := rg_class k) Pt) (In2 before)) = Ok tt ->
    snd (partial_fit (new (C := rg_class k) Pt) (In2 seen)) = Ok tt ->
    let o := fst (partial_fit (new (C := rg_class k) Pt) (In2 before)) in
    let target := fst (partial_fit (new (C := rg_class k) Pt) (In2 seen)) in
    exists j o', get_state o = Ok j /\ set_state target j = Ok o' /\
      let resumed := partial_fit o' (In2 after) in
      let equivalent := partial_fit (new Pf) (In2 (differences before ++ differences (last_row seen ++ after))%list) in
      snd resumed = snd equivalent /\ same_fitted L (fst resumed) (fst equivalent).
Proof.
  intros N L HL fuel k Hk P p before seen after Hp Hb Hs Ha Pt Pf Hok Hok2 o target.
  destruct (registry_behaved L HL fuel k Hk) as (wf & R & HB).
  destruct (registry_diff L fuel k Hk P) as [D H]. fold Pt Pf in H.
  pose proof (D true) as Dt. pose proof (D false) as Df. fold Pt in Dt. fold Pf in Df.
  assert (G : good wf p o).
  { unfold o, partial_fit. cbn [as_rows]. apply (fit_rows_good wf R HB); auto using new_good. }
  destruct (fit_rows_prev seen (new (C := rg_class k) Pt) Dt Hok2) as [T1 T2]. cbn [new i_params i_prev] in T1, T2.
  change (fst (fit_rows (new (C := rg_class k) Pt) seen)) with target in T1, T2.
  destruct (get_set_round wf R HB p o Pt Hp G) as (j & o0 & E1 & E2 & E3 & E4 & E5 & _).
  assert (E2' : set_state target j = Ok (mkInst Pt (i_state o0) (i_nfeat o0) (i_prev target))).
  { revert E2. unfold set_state. rewrite T1. destruct j as [d|]; [|intros [= <-]; reflexivity].
    destruct (c_set (rg_class k) d) as [[s nf]|]; cbn [bind]; [|discriminate]. intros [= <-]. reflexivity. }
  exists j, (mkInst Pt (i_state o0) (i_nfeat o0) (i_prev target)). split; [exact E1|]. split; [exact E2'|]. cbv zeta.
  assert (K : exists s nf, i_state o = s /\
     partial_fit (new (C := rg_class k) Pf) (In2 (differences before)) = (mkInst Pf s nf None, Ok tt)).
  { unfold o, partial_fit in *. cbn [as_rows] in *. destruct before as [|x before].
    - exists None, None. split; reflexivity.
    - inversion Hb as [|? ? Hx Hb']; subst.
      assert (Ea : fit_rows (new (C := rg_class k) Pt) (x :: before) = fit_rows (mkInst Pt None None (Some x)) before).
      { cbn [fit_rows]. unfold fit_row, new. cbn [i_params i_prev i_state i_nfeat]. now rewrite Dt. }
      generalize (diff_sim (C := rg_class k) Pt Pf (length x) x before None None Dt Df H eq_refl Hb'). cbv zeta.
      rewrite Ea in *.
      pose proof (fit_rows_quiet (C := rg_class k) (mkInst Pf None None None) (differences (x :: before))
                    (conj Df eq_refl)) as [_ Q]. revert Q.
      change (new Pf) with (mkInst (C := rg_class k) Pf None None None).
      destruct (fit_rows (mkInst (C := rg_class k) Pf None None None) (differences (x :: before))) as [[Pb sb nb pb] rb].
      revert Hok. destruct (fit_rows (mkInst Pt None None (Some x)) before) as [[Pa sa na pa] ra].
      cbn [fst snd i_prev i_state i_params i_nfeat]. intros -> -> (A1 & A2 & A3 & A4 & A5). subst.
      exists sb, nb. auto. }
  destruct K as (s & nf & Es & Ek).
  rewrite C01_batch_and_stream_agree, Ek.
  set (o2 := mkInst (C := rg_class k) Pt s nf (i_prev target)).
  assert (S2 : sim' R o2 (mkInst Pt (i_state o0) (i_nfeat o0) (i_prev target))).
  { split; [|split]; cbn [i_params i_prev i_state o2]; auto.
    unfold ropt', ropt, RE in *. rewrite Es in E4. cbn [i_state]. destruct s, (i_state o0); auto. }
  destruct (fit_rows_sim wf R HB o2 _ after S2) as [S3 S4].
  apply (sim_same_fitted wf R HB L) in S4.
  unfold partial_fit. cbn [as_rows].
  assert (K : snd (fit_rows o2 after) = snd (fit_rows (mkInst Pf s nf None) (differences (last_row seen ++ after)%list)) /\
              same_fitted L (fst (fit_rows o2 after)) (fst (fit_rows (mkInst Pf s nf None) (differences (last_row seen ++ after)%list)))).
  { assert (Z : forall y after' p', rows_of_length p' (y :: after') ->
        snd (fit_rows (mkInst Pt s nf (Some y)) after') = snd (fit_rows (mkInst Pf s nf None) (differences (y :: after'))) /\
        same_fitted L (fst (fit_rows (mkInst Pt s nf (Some y)) after')) (fst (fit_rows (mkInst Pf s nf None) (differences (y :: after'))))).
    { intros y after' p' HH. inversion HH as [|? ? Hy Ha']; subst.
      generalize (diff_sim (C := rg_class k) Pt Pf (length y) y after' (i_state o) nf Dt Df H eq_refl Ha'). cbv zeta.
      destruct (fit_rows (mkInst Pf (i_state o) nf None) (differences (y :: after'))) as [[Pb sb nb pb] rb].
      destruct (fit_rows (mkInst Pt (i_state o) nf (Some y)) after') as [[Pa sa na pa] ra].
      cbn [fst snd i_state i_params i_nfeat]. intros (A1 & A2 & A3 & A4 & A5). subst. split; auto.
      now apply same_hooks_fitted. }
    unfold o2. rewrite T2. unfold last_row. destruct (rev seen) as [|z r] eqn:Er.
    - cbn [app]. destruct after as [|y after]; [split; [reflexivity|]; cbn; now apply same_hooks_fitted|].
      assert (Ea : fit_rows (mkInst (C := rg_class k) Pt s nf None) (y :: after) = fit_rows (mkInst Pt s nf (Some y)) after).
      { cbn [fit_rows]. unfold fit_row. cbn [i_params i_prev i_state i_nfeat]. now rewrite Dt. }
      rewrite Ea. now apply (Z y after p).
    - cbn [app]. apply (Z z after p). constructor; auto. unfold rows_of_length in Hs. rewrite Forall_forall in Hs. apply Hs.
      assert (Iz : In z (rev seen)) by (rewrite Er; now left). now apply in_rev. }
  destruct K as [K1 K2]. split; [congruence|].
  destruct S4 as (s1 & s2 & s3 & s4 & s5 & s6 & s7), K2 as (t1 & t2 & t3 & t4 & t5 & t6 & t7).
  repeat split; try congruence; intros X; rewrite <- ?s6, <- ?s7; auto.
Qed.
(** non-vacuous: rolling Empirical back to the checkpoint after [a], [b] once [c] has been seen: the next row is
    differenced against [c] *)
Example C05_rollback (N : Num) (a b c d : N) :
  let o := fst (partial_fit (new (C := Empirical) (mkEmpP true)) (In2 [[a]; [b]])) in
  let later := fst (partial_fit o (In1 [c])) in
  exists j o', get_state o = Ok j /\ set_state later j = Ok o' /\
    snd (partial_fit o' (In1 [d])) = Ok tt /\
    n_samples_ (fst (partial_fit o' (In1 [d]))) = Ok 2 /\
    location_ (fst (partial_fit o' (In1 [d]))) =
    location_ (fst (partial_fit (new (C := Empirical) (mkEmpP false)) (In2 [[nsub b a]; [nsub d c]]))).
Proof. eexists _, _. repeat split; reflexivity. Qed.

(** ** C07 *)
Theorem C07_counts_and_fitted_attributes :
  forall (N : Num) (L : LinAlg N), la_shapes L -> la_quiet L -> forall fuel k, In k (registry L fuel) ->
  forall P diff p rows o,
    1 <= p -> rows_of_length p rows ->
    partial_fit (new (C := rg_class k) (rg_with_diff k P diff)) (In2 rows) = (o, Ok tt) ->
    let n := length (absorbed diff rows) in
    n_samples_ o = Ok n /\
    (n = 0 -> location_ o = Err NotFittedError /\ covariance_ o = Err NotFittedError) /\
    (n >= 1 -> (exists m, location_ o = Ok m /\ length m = p) /\ covariance_ o <> Err NotFittedError).
Proof.
  intros N L HL HQ fuel k Hk P diff p rows o Hp Hr E. cbv zeta.
  destruct (registry_behaved L HL fuel k Hk) as (wf & R & HB).
  destruct (registry_diff L fuel k Hk P) as [D H].
  assert (K : forall rows o, rows_of_length p rows ->
    fit_rows (new (C := rg_class k) (rg_with_diff k P false)) rows = (o, Ok tt) ->
    n_samples_ o = Ok (length rows) /\
    (length rows = 0 -> location_ o = Err NotFittedError /\ covariance_ o = Err NotFittedError) /\
    (length rows >= 1 -> (exists m, location_ o = Ok m /\ length m = p) /\ covariance_ o <> Err NotFittedError)).
  { clear - HB HQ Hk Hp D. intros rows o Hr E.
    destruct (absorbed_count_nodiff wf R HB p _ rows o Hp (D false) Hr E) as (A1 & A2 & A3 & A4).
    split; [exact A1|]. split.
    - intros Hl. destruct rows; [|discriminate]. specialize (A3 eq_refl).
      unfold location_, covariance_, fitted_state. rewrite A3. auto.
    - intros Hl. destruct A4 as (s & Es & W); [intros ->; simpl in Hl; lia|].
      assert (F : fitted_state o = Ok s).
      { unfold fitted_state, n_samples_ in *. rewrite Es in *. rewrite A1. cbn [bind get_or].
        destruct (Nat.ltb_spec (length rows) 1); [lia|reflexivity]. }
      split.
      + destruct (bh_mean _ _ _ HB (i_params o) p s Hp W) as (v & Ev & Hv).
        exists v. split; auto. unfold location_. rewrite F. exact Ev.
      + unfold covariance_. rewrite F. cbn [bind].
        apply (nonf_bind (c_cov (rg_class k) (i_params o) s)).
        * apply (registry_cov_nonf L HQ fuel k Hk).
        * intros a. unfold to_symmetric. apply nonf_bind; [apply nonf_bc2|intros; apply nonf_ok]. }
  destruct diff; [|exact (K rows o Hr E)].
  pose proof (diff_is_differencing (C := rg_class k) L _ _ p rows (D true) (D false) H Hr) as A. cbv zeta in A.
  rewrite E in A. cbn [fst snd] in A. cbn [absorbed].
  destruct (partial_fit (new (rg_with_diff k P false)) (In2 (differences rows))) as [o' r'] eqn:E'.
  cbn [fst snd] in A. destruct A as [<- (s1 & s2 & s3 & _)]. rewrite s1, s2, s3.
  apply K; auto. now apply differences_rows.
Qed.

(** ** C08: refuted by numpy broadcasting, three ways *)
(** a length-1 observation is accepted by a two-variable estimator; *)
Theorem C08_shape_refuted_short :
  forall (N : Num) (a b c : N),
    let '(o, out) := partial_fit (new (C := Empirical) (mkEmpP false)) (In2 [[a; b]; [c]]) in
    out = Ok tt /\ n_samples_ o = Ok 2.
Proof. intros. split; reflexivity. Qed.
(** a one-variable estimator accepts a longer row, and silently changes dimension (which classes do so: Props_OneVar.v); *)
Theorem C08_shape_refuted_grow :
  forall (N : Num) (a b c : N),
    let '(o, out) := partial_fit (new (C := Empirical) (mkEmpP false)) (In2 [[a]; [b; c]]) in
    out = Ok tt /\ i_nfeat o = Some 1 /\ exists m, location_ o = Ok m /\ length m = 2.
Proof. intros. cbn. split; [reflexivity|]. split; [reflexivity|]. eexists; split; reflexivity. Qed.
(** BlockCovariance ignores surplus coordinates. *)
Theorem C08_shape_refuted_block :
  forall (N : Num) (L : LinAlg N) (r : N) (a b c : N) nb, ewa_burn_n r = Ok (S nb) ->
    let '(o, out) := partial_fit (new (C := Block L) (mkBlkP r 1 false)) (In2 [[a]; [b; c]]) in
    out = Ok tt /\ n_samples_ o = Ok 2.
Proof.
  intros N L r a b c nb H. unfold partial_fit. cbn [as_rows fit_rows]. unfold fit_row, new, absorb.
  cbn [i_params i_state c_init c_diff Block blk_diff]. unfold blk_init.
  replace (slices (blk_n_blocks (mkBlkP r 1 false)) (length [a])) with (Ok [(0, 1)]) by reflexivity.
  cbn [bind blk_r mapM snd fst Nat.sub]. unfold ewa_init. rewrite H. cbn [bind].
  destruct nb; vm_compute; auto.
Qed.

(** What does hold: every class with diff=True, and every class but BlockCovariance with diff=False, rejects a length
    different from 1 and from its dimension (itself different from 1), and the instance is left exactly as it was.
    For BlockCovariance with diff=False the exact rule is C08_block_rule (Props_Mismatch.v). *)
Theorem C08_mismatch_rejected :
  forall (N : Num) (L : LinAlg N), la_shapes L -> forall fuel k, In k (registry L fuel) ->
  forall P, c_name (rg_class k) <> "BlockCovariance" \/ c_diff (rg_class k) P = true ->
  forall p rows o x,
    2 <= p -> rows_of_length p rows -> rows <> [] ->
    partial_fit (new (C := rg_class k) P) (In2 rows) = (o, Ok tt) ->
    length x <> p -> length x <> 1 ->
    exists e, partial_fit o (In1 x) = (o, Err e).
Proof.
  intros N L HL fuel k Hk P Hname p rows o x Hp Hr Hne E Hx Hx1.
  destruct (registry_behaved L HL fuel k Hk) as (wf & R & HB).
  assert (Hp1 : 1 <= p) by lia.
  assert (G : good wf p o).
  { pose proof (fit_rows_good wf R HB p (new P) rows Hp1 (new_good wf p P) Hr) as G.
    unfold partial_fit in E. cbn [as_rows] in E. now rewrite E in G. }
  unfold partial_fit. cbn [as_rows fit_rows]. unfold fit_row.
  (* parameters are those of construction *)
  assert (A : i_params o = P /\ (c_diff (rg_class k) P = false -> exists s, i_state o = Some s) /\
              (c_diff (rg_class k) P = true -> exists y, i_prev o = Some y)).
  { unfold partial_fit in E. cbn [as_rows] in E. clear -E Hne.
    assert (AB : forall (o : inst (rg_class k)) x o', absorb o x = (o', Ok tt) ->
                 i_params o' = i_params o /\ i_prev o' = i_prev o /\ exists s, i_state o' = Some s).
    { clear. intros o x o'. unfold absorb. destruct (i_state o).
      - destruct (c_update _ _ _ _); intros H; try discriminate; injection H as <-; cbn; eauto.
      - destruct (c_init _ _ _); [|discriminate].
        destruct (c_update _ _ _ _); intros H; try discriminate; injection H as <-; cbn; eauto. }
    destruct rows as [|y rows]; [congruence|]. clear Hne. change P with (i_params (new (C := rg_class k) P)).
    revert E. generalize (new (C := rg_class k) P). revert y. induction rows as [|z rows IH]; intros y o0 E.
    - cbn [fit_rows] in E. destruct (fit_row o0 y) as [o1 [[]|e]] eqn:F; [|discriminate]. injection E as <-.
      unfold fit_row in F. destruct (c_diff (rg_class k) (i_params o0)).
      + destruct (i_prev o0) as [v|].
        * destruct (vsub y v); [|discriminate]. apply AB in F. cbn [i_params i_prev] in F.
          destruct F as (F1 & F2 & F3). repeat split; auto. intros _. eauto.
        * injection F as <-. cbn. repeat split; eauto. discriminate.
      + apply AB in F. destruct F as (F1 & F2 & F3). repeat split; auto. discriminate.
    - cbn [fit_rows] in E. destruct (fit_row o0 y) as [o1 [[]|e]] eqn:F; [|discriminate].
      assert (Hp : i_params o1 = i_params o0).
      { unfold fit_row in F. destruct (c_diff (rg_class k) (i_params o0)).
        - destruct (i_prev o0) as [v|]; [|injection F as <-; reflexivity].
          destruct (vsub y v); [|discriminate]. apply AB in F. apply F.
        - apply AB in F. apply F. }
      rewrite <- Hp. eapply IH. exact E. }
  destruct A as (A1 & A2 & A3). rewrite A1. destruct (c_diff (rg_class k) P) eqn:Hd.
  - destruct (A3 eq_refl) as (y & Hy). rewrite Hy. destruct G as [_ G2]. specialize (G2 y Hy).
    rewrite vsub_mismatch by congruence || lia. eauto.
  - destruct (A2 eq_refl) as (s & Hs). destruct G as [G1 _]. destruct (G1 s Hs) as [W _].
    destruct (bh_mean _ _ _ HB P p s Hp1 W) as (v & Ev & Hv).
    assert (Hname' : c_name (rg_class k) <> "BlockCovariance") by (destruct Hname; congruence).
    destruct (registry_mismatch L fuel k Hk Hname' P s x v Ev) as (e & He); try congruence; try lia.
    exists e. unfold absorb. rewrite Hs, A1, He. reflexivity.
Qed.

(** ** C09: refuted - a rejected [fit] discards the estimate *)
Theorem C09_failed_fit_refuted :
  forall (N : Num) (L : LinAlg N) (C : EstClass N) (o : inst C) X,
    (forall rows, X <> In2 rows) ->
    snd (fit o X) = Err ValueError /\ location_ (fst (fit o X)) = Err NotFittedError /\
    covariance_ (fst (fit o X)) = Err NotFittedError /\ n_samples_ (fst (fit o X)) = Ok 0.
Proof.
  intros N L C o X H. destruct X as [v|rows|n]; [|exfalso; now apply (H rows)|]; repeat split; reflexivity.
Qed.
(** e.g. an estimator that did have an estimate *)
Theorem C09_failed_fit_refuted_witness :
  forall (N : Num) (a b : N),
    let o := fst (partial_fit (new (C := Empirical) (mkEmpP false)) (In1 [a; b])) in
    (exists m, location_ o = Ok m) /\ location_ (fst (fit o (In1 [a; b]))) = Err NotFittedError.
Proof. intros. split; [eexists; reflexivity|reflexivity]. Qed.
(** [partial_fit] on input that is neither 1-d nor 2-d does leave everything alone. *)
Theorem C09_failed_partial_fit_harmless :
  forall (N : Num) (C : EstClass N) (o : inst C) n, partial_fit o (InN n) = (o, Err ValueError).
Proof. reflexivity. Qed.

(** ** C10 *)
Theorem C10_exception_keeps_prefix :
  forall (N : Num) (C : EstClass N) (o o' : inst C) rows e,
    partial_fit o (In2 rows) = (o', Err e) ->
    exists pre x post o1,
      rows = (pre ++ x :: post)%list /\ partial_fit o (In2 pre) = (o1, Ok tt) /\
      partial_fit o1 (In1 x) = (o', Err e) /\
      i_params o' = i_params o1 /\
      (* once there is a state, the failing row does not touch it *)
      (i_state o1 <> None -> i_state o' = i_state o1 /\ i_nfeat o' = i_nfeat o1) /\
      (* without differencing the instance is exactly the one of the good prefix *)
      (i_state o1 <> None -> c_diff C (i_params o1) = false -> o' = o1).
Proof.
  intros N C o o' rows e E. unfold partial_fit in E. cbn [as_rows] in E.
  destruct (fit_rows_prefix o rows o' e E) as (pre & x & post & o1 & -> & E1 & E2).
  exists pre, x, post, o1. split; [reflexivity|]. split; [exact E1|].
  split; [unfold partial_fit; cbn [as_rows fit_rows]; now rewrite E2|].
  assert (AB : forall o x o', absorb (C := C) o x = (o', Err e) ->
    i_params o' = i_params o /\ (i_state o <> None -> o' = o)).
  { clear. intros o x o'. unfold absorb. destruct (i_state o) as [s|] eqn:Es.
    - destruct (c_update _ _ _ _); intros [= <- _]. auto.
    - destruct (c_init _ _ _); [destruct (c_update _ _ _ _)|]; intros [= <- _]; split; auto; congruence. }
  split; [|split].
  - unfold fit_row in E2. destruct (c_diff C (i_params o1)); [|now apply AB in E2].
    destruct (i_prev o1) as [v|]; [|discriminate]. destruct (vsub x v); [|now injection E2 as <- _].
    apply AB in E2. cbn [i_params] in E2. apply E2.
  - intros Hs. unfold fit_row in E2. destruct (c_diff C (i_params o1)).
    + destruct (i_prev o1) as [v|]; [|discriminate]. destruct (vsub x v); [|now injection E2 as <- _].
      apply AB in E2. cbn [i_state] in E2. destruct E2 as [_ E2]. specialize (E2 Hs). now subst.
    + apply AB in E2. destruct E2 as [_ E2]. specialize (E2 Hs). now subst.
  - intros Hs Hd. exact (fit_row_err_nodiff o1 x o' e Hd Hs E2).
Qed.

(** With diff=True a rejected row of the right length still becomes the baseline of the next
    difference; with diff=False nothing survives (the case a state exists). *)
Theorem C10_failing_row_moves_baseline :
  forall (N : Num) (C : EstClass N) (o o' : inst C) x y e,
    c_diff C (i_params o) = true -> i_prev o = Some y -> length x = length y ->
    partial_fit o (In1 x) = (o', Err e) -> i_prev o' = Some x.
Proof.
  intros N C o o' x y e Hd Hy Hx. unfold partial_fit. cbn [as_rows fit_rows]. unfold fit_row.
  rewrite Hd, Hy, vsub_eqlen by auto. unfold absorb. cbn [i_state i_params i_nfeat i_prev].
  destruct (i_state o) as [s|].
  - destruct (c_update _ _ _ _); intros [= <- _]. reflexivity.
  - destruct (c_init _ _ _); [destruct (c_update _ _ _ _)|]; intros [= <- _]; reflexivity.
Qed.

(** An exception is possible, and leaves a usable estimator (non-vacuity of C10 and C08). *)
Example C10_example : forall (N : Num) (a b c d e f : N),
  partial_fit (new (C := Empirical) (mkEmpP false)) (In2 [[a; b]; [c; d; e]; [f; f]]) =
  (fst (partial_fit (new (C := Empirical) (mkEmpP false)) (In2 [[a; b]])), Err ValueError).
Proof. reflexivity. Qed.

(** ** C11 *)
Theorem C11_parameters_frozen :
  forall (N : Num) (L : LinAlg N) fuel k, In k (registry L fuel) ->
  In (c_name (rg_class k)) params_frozen ->
  forall (o : inst (rg_class k)) P' rows,
    i_state o <> None -> c_diff (rg_class k) P' = c_diff (rg_class k) (i_params o) ->
    let a := partial_fit (set_params o P') (In2 rows) in
    let b := partial_fit o (In2 rows) in
    snd a = snd b /\ same_fitted L (fst a) (fst b).
Proof.
  intros N L fuel k Hk Hn o P' rows Hs Hd. cbv zeta.
  pose proof (registry_frozen L fuel k Hk Hn P' (i_params o)) as HF.
  destruct (fit_rows_fz (C := rg_class k) P' (i_params o) HF Hd (set_params o P') o rows) as [E1 E2].
  { repeat split; auto. }
  split; [exact E1|]. exact (fz_fitted _ _ HF L _ _ E2).
Qed.
Example C11_registered_example : forall (N : Num) (L : LinAlg N) fuel,
  In (mkReg Ewa ewa_with) (registry L fuel) /\ In (c_name (rg_class (mkReg (N := N) Ewa ewa_with))) params_frozen.
Proof. intros. split; cbn; auto 20. Qed.

(** Non-vacuity of C03, C04, C06, C07: a registered class, a LAPACK meeting the contracts and an
    accepted three-row stream. *)
Example Stream_example : forall (N : Num) (a b c d e f : N),
  let k := mkReg (N := N) Empirical (fun _ b => mkEmpP b) in
  In k (registry (la_fail N) 0) /\ la_shapes (la_fail N) /\ la_quiet (la_fail N) /\
  rows_of_length 2 [[a; b]; [c; d]; [e; f]] /\
  snd (partial_fit (new (C := rg_class k) (rg_with_diff k (mkEmpP true) false)) (In2 [[a; b]; [c; d]; [e; f]])) = Ok tt /\
  snd (partial_fit (new (C := rg_class k) (rg_with_diff k (mkEmpP true) true)) (In2 [[a; b]; [c; d]; [e; f]])) = Ok tt /\
  history_of_length (C := rg_class k) 2 (feed [[a; b]; [c; d]]) /\ never_diff (C := rg_class k) (feed [[a; b]; [c; d]]).
Proof.
  intros. repeat split; try apply la_fail_shapes; try apply la_fail_quiet; try reflexivity.
  - left. reflexivity.
  - repeat constructor.
  - repeat constructor.
  - repeat constructor.
Qed.

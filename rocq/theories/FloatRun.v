(** * Running the moment estimators entry by entry, for any scalar type (proof infrastructure for Props_Float.v)

    No arithmetic law is used: these lemmas say which floating-point operations produce each entry. *)
From Coq Require Import ZArith Bool String List Lia Arith.
From Verif Require Import Num Numpy PyVal LinalgModel StateModel BaseModel Estimators
  Spec ListLemmas BaseProofs.
Import ListNotations.
Local Open Scope string_scope.
Local Open Scope nat_scope.

Definition no_linalg (N : Num) : LinAlg N :=
  mkLA N (fun _ => Err LinAlgError) (fun _ => Err LinAlgError) (fun _ => Err LinAlgError)
     (fun _ => Err LinAlgError) (fun _ => Err LinAlgError) (fun _ => Err LinAlgError)
     (fun _ _ => Err LinAlgError) (fun _ => Err LinAlgError) (fun x => x) (fun x _ => x) n0 n0.

Section RunTab.
  Context {N : Num} {C : EstClass N} (mk : bool -> c_P C).
  Context (HD : (forall b, c_diff C (mk b) = b) /\ same_hooks (mk true) (mk false)).
  Context {A : Type} (emb : A -> c_St C) (step : A -> (nat -> N) -> A) (p : nat) (a0 : A).
  Context (H0 : c_init C (mk false) p = Ok (emb a0)).
  Context (HS : forall a x, c_update C (mk false) (emb a) (tab p x) = Ok (emb (step a x))).

  Lemma foldU_tab xs a :
    foldU (C := C) (mk false) (emb a) (map (tab p) xs) = (emb (fold_left step xs a), Ok tt).
  Proof. revert a; induction xs as [|x xs IH]; intros a; simpl; auto. rewrite HS. auto. Qed.

  Lemma run_tab xs diff rows n : rows_of_length p rows -> absorbed diff rows = map (tab p) xs -> xs <> [] ->
    let s := emb (fold_left step xs a0) in
    c_nsamples C s = Ok (S n) ->
    exists o, partial_fit (new (mk diff)) (In2 rows) = (o, Ok tt) /\
      n_samples_ o = Ok (S n) /\
      location_ o = c_mean C (mk false) s /\
      covariance_ o = (c <- c_cov C (mk false) s ;; to_symmetric c).
  Proof.
    intros Hr Ha Hx s Hn. destruct HD as [D S].
    assert (E : partial_fit (new (mk false)) (In2 (map (tab p) xs)) = (mkInst (mk false) (Some s) (Some p) None, Ok tt)).
    { unfold partial_fit. cbn [as_rows]. unfold s. destruct xs as [|x xs]; [congruence|]. cbn [map].
      etransitivity; [apply (partial_fit_new (mk false) (map (tab p) xs) (tab p x) (emb a0)); auto|].
      - etransitivity; [|exact H0]. f_equal. apply tab_length.
      - pose proof (foldU_tab (x :: xs) a0) as K. cbn [map] in K.
        apply (f_equal (fun w => (mkInst (mk false) (Some (fst w)) (Some (length (tab p x))) None, snd w))) in K.
        etransitivity; [exact K|]. cbn [fst snd]. now rewrite tab_length. }
    assert (K : exists o, partial_fit (new (mk diff)) (In2 rows) = (o, Ok tt) /\
                same_fitted (no_linalg N) o (mkInst (mk false) (Some s) (Some p) None)).
    { destruct diff; cbn [absorbed] in Ha.
      - destruct (diff_is_differencing (C := C) (no_linalg N) _ _ p rows (D true) (D false) S Hr) as [E1 E2].
        destruct (partial_fit (new (mk true)) (In2 rows)) as [o u]. exists o.
        cbn [fst snd] in E1, E2. rewrite Ha, E in E1, E2. cbn [fst snd] in E1, E2. subst u. auto.
      - subst rows. eexists. split; [exact E|]. repeat split; reflexivity. }
    destruct K as (o & E1 & F1 & F2 & F3 & _). exists o. rewrite F1, F2, F3. split; [exact E1|].
    set (o' := mkInst (mk false) (Some s) (Some p) None).
    assert (Fs : fitted_state o' = Ok s) by (unfold fitted_state, o'; cbn [i_state]; now rewrite Hn).
    split; [exact Hn|]. split.
    - unfold location_. now rewrite Fs.
    - unfold covariance_. now rewrite Fs.
  Qed.
End RunTab.

Section Entries.
  Context {N : Num}.
  (** the coordinates of a list of rows *)
  Definition coords (rows : list (vec N)) : list (nat -> N) := map (fun row i => nth i row n0) rows.
  Lemma coords_tab p (rows : list (vec N)) : rows_of_length p rows -> rows = map (tab p) (coords rows).
  Proof.
    intros H. unfold coords. rewrite map_map. rewrite <- (map_id rows) at 1. apply map_ext_in. intros row Hr.
    unfold rows_of_length in H. rewrite Forall_forall in H. now apply tab_nth', H.
  Qed.
  Lemma absorbed_rows p d (rows : list (vec N)) : rows_of_length p rows -> rows_of_length p (absorbed d rows).
  Proof. destruct d; [apply differences_rows|auto]. Qed.

  Record fst3 := mkF { fn : nat; fm_ : nat -> N; fc : nat -> nat -> N }.
  Definition f0 : fst3 := mkF 0 (fun _ => n0) (fun _ _ => n0).
  (** one Welford step, entry by entry *)
  Definition wf_mean (n : N) (m x : N) : N := nadd m (ndiv (nsub x m) n).
  Definition wf_cov (n n1 : N) (c xi mi xj mj' : N) : N :=
    nadd (ndiv (nmul c n1) n) (nmul (nsub xi mi) (ndiv (nsub xj mj') n)).
  Definition f_emp (a : fst3) (x : nat -> N) : fst3 :=
    let n := nofn (S (fn a)) in
    let m i := wf_mean n (fm_ a i) (x i) in
    mkF (S (fn a)) m (fun i j => wf_cov n (nofn (fn a)) (fc a i j) (x i) (fm_ a i) (x j) (m j)).
  Definition ew_mean (r m x : N) : N := nadd (nmul (nsub n1 r) m) (nmul r x).
  Definition ew_cov (r c xi mi xj mj : N) : N := nadd (nmul (nsub n1 r) c) (nmul r (nmul (nsub xi mi) (nsub xj mj))).
  Definition f_ew (r : N) (a : fst3) (x : nat -> N) : fst3 :=
    mkF (S (fn a)) (fun i => ew_mean r (fm_ a i) (x i))
        (fun i j => ew_cov r (fc a i j) (x i) (fm_ a i) (x j) (fm_ a j)).
  Definition f_ewa (r : N) (nb : nat) (a : fst3) (x : nat -> N) : fst3 :=
    if Nat.ltb (fn a) nb then f_emp a x else f_ew r a x.
  Definition f_emp_d (p : nat) (a : fst3) : dict N :=
    [("n_dim", VInt p); ("n_samples", VInt (fn a)); ("mean", VArr (A1 (tab p (fm_ a))));
     ("cov", VArr (A2 (tab2 p p (fc a))))].
  Definition f_ewa_d (p : nat) (r : N) (nb : nat) (a : fst3) : dict N :=
    (f_emp_d p a ++ [("r", VNum r); ("n_burn", VInt nb)])%list.

  Lemma outer_tab p (a b : nat -> N) : outer (tab p a) (tab p b) = tab2 p p (fun i j => nmul (a i) (b j)).
  Proof. unfold outer, tab2. rewrite map_tab. apply tab_ext. intros i _. now rewrite map_tab. Qed.
  Ltac rd := cbn [getI getN getV getM getT getN_default dget String.eqb Ascii.eqb Bool.eqb bind app fst snd].
  Lemma emp_update_tab p (s : dict N) a x :
    getI "n_samples" s = Ok (fn a) -> getV "mean" s = Ok (tab p (fm_ a)) ->
    getM "cov" s = Ok (tab2 p p (fc a)) -> getI "n_dim" s = Ok p ->
    emp_update s (tab p x) = Ok (f_emp_d p (f_emp a x)).
  Proof.
    intros H1 H2 H3 H4. unfold emp_update. rewrite H1, H2, H3, H4. cbn [bind].
    unfold vsub at 1. rewrite bc_tab. cbn [bind]. unfold vdivs at 1. rewrite map_tab. unfold vadd at 1. rewrite bc_tab. cbn [bind].
    unfold vsub at 1. rewrite bc_tab. cbn [bind]. unfold vdivs. rewrite map_tab, outer_tab.
    unfold mmap. rewrite map_tab2. unfold madd. rewrite bc2_tab. cbn [bind].
    replace (S (fn a) - 1) with (fn a) by lia. reflexivity.
  Qed.
  Lemma ewa_update_tab p r nb a x : ewa_update (f_ewa_d p r nb a) (tab p x) = Ok (f_ewa_d p r nb (f_ewa r nb a x)).
  Proof.
    unfold ewa_update, f_ewa_d. unfold f_emp_d at 1 2 3. rd. unfold f_ewa.
    destruct (Nat.ltb (fn a) nb).
    - rewrite (emp_update_tab p _ a x) by reflexivity. reflexivity.
    - unfold f_emp_d at 1 2 3. rd. unfold vsub at 1. rewrite bc_tab. cbn [bind]. unfold vscale. rewrite !map_tab.
      unfold vadd. rewrite bc_tab. cbn [bind]. rewrite outer_tab. unfold mscale, mmap. rewrite !map_tab2.
      unfold madd. rewrite bc2_tab. reflexivity.
  Qed.
  Lemma fn_emp xs a : fn (fold_left f_emp xs a) = fn a + length xs.
  Proof. revert a. induction xs as [|x xs IH]; intros a; simpl; [lia|]. rewrite IH. simpl. lia. Qed.
  Lemma fn_ewa r nb xs a : fn (fold_left (f_ewa r nb) xs a) = fn a + length xs.
  Proof.
    revert a. induction xs as [|x xs IH]; intros a; simpl; [lia|]. rewrite IH. unfold f_ewa. destruct (Nat.ltb _ _); simpl; lia.
  Qed.
  Lemma to_symmetric_tab p (c : nat -> nat -> N) : 1 <= p ->
    to_symmetric (tab2 p p c) = Ok (tab2 p p (fun i j => ndiv (nadd (c i j) (c j i)) (nofZ 2))).
  Proof.
    intros Hp. unfold to_symmetric, transpose.
    assert (E1 : nrows (tab2 p p c) = p) by apply tab2_length.
    assert (E2 : ncols (tab2 p p c) = p).
    { unfold ncols, tab2. destruct p; [lia|]. rewrite tab_S. cbn [hd]. apply tab_length. }
    rewrite E1, E2. unfold madd. rewrite bc2_tab. cbn [bind]. unfold mdivs, mmap. rewrite map_tab2. f_equal.
    apply tab2_ext. intros i j Hi Hj. unfold mget. rewrite nth_tab2 by auto. now rewrite nth_tab by auto.
  Qed.

  (** EmpiricalCovariance, EwaCovariance: the attributes after a stream *)
  Theorem emp_entries p diff rows : 1 <= p -> rows_of_length p rows -> absorbed diff rows <> [] ->
    let a := fold_left f_emp (coords (absorbed diff rows)) f0 in
    exists o, partial_fit (new (C := Empirical) (mkEmpP diff)) (In2 rows) = (o, Ok tt) /\
      n_samples_ o = Ok (length (absorbed diff rows)) /\
      location_ o = Ok (tab p (fm_ a)) /\
      covariance_ o = Ok (tab2 p p (fun i j => ndiv (nadd (fc a i j) (fc a j i)) (nofZ 2))).
  Proof.
    intros Hp Hr Hx. set (xs := coords (absorbed diff rows)). intros a.
    assert (Hl : length xs = length (absorbed diff rows)) by apply map_length.
    destruct (absorbed diff rows) as [|y ys] eqn:Ey; [congruence|].
    destruct (run_tab (C := Empirical) (fun b => mkEmpP b) ltac:(split; [reflexivity|repeat split; intros; first [discriminate|reflexivity]])
      (f_emp_d p) f_emp p f0 eq_refl (fun a x => emp_update_tab p (f_emp_d p a) a x eq_refl eq_refl eq_refl eq_refl)
      xs diff rows (length ys) Hr) as (o & E1 & E2 & E3 & E4).
    - rewrite Ey. apply coords_tab. rewrite <- Ey. now apply absorbed_rows.
    - destruct xs; [discriminate|discriminate].
    - cbn. rewrite fn_emp. cbn [f0 fn]. unfold xs, coords. rewrite map_length. reflexivity.
    - exists o. split; [exact E1|]. split; [exact E2|]. split; [exact E3|]. rewrite E4. cbn -[to_symmetric tab2]. rewrite to_symmetric_tab by auto. reflexivity.
  Qed.
  Theorem ewa_entries p r nb diff rows : 1 <= p -> ewa_burn_n r = Ok nb -> rows_of_length p rows -> absorbed diff rows <> [] ->
    let a := fold_left (f_ewa r nb) (coords (absorbed diff rows)) f0 in
    exists o, partial_fit (new (C := Ewa) (mkEwaP r diff)) (In2 rows) = (o, Ok tt) /\
      n_samples_ o = Ok (length (absorbed diff rows)) /\
      location_ o = Ok (tab p (fm_ a)) /\
      covariance_ o = Ok (tab2 p p (fun i j => ndiv (nadd (fc a i j) (fc a j i)) (nofZ 2))).
  Proof.
    intros Hp Hb Hr Hx. set (xs := coords (absorbed diff rows)). intros a.
    assert (Hl : length xs = length (absorbed diff rows)) by apply map_length.
    destruct (absorbed diff rows) as [|y ys] eqn:Ey; [congruence|].
    destruct (run_tab (C := Ewa) (fun b => mkEwaP r b) ltac:(split; [reflexivity|repeat split; intros; first [discriminate|reflexivity]])
      (f_ewa_d p r nb) (f_ewa r nb) p f0 ltac:(cbn; unfold ewa_init; rewrite Hb; reflexivity)
      (fun a x => ewa_update_tab p r nb a x)
      xs diff rows (length ys) Hr) as (o & E1 & E2 & E3 & E4).
    - rewrite Ey. apply coords_tab. rewrite <- Ey. now apply absorbed_rows.
    - destruct xs; [discriminate|discriminate].
    - assert (K : fn (fold_left (f_ewa r nb) xs f0) = S (length ys)) by (rewrite fn_ewa, Hl; reflexivity). cbn. cbn in K. rewrite K. reflexivity.
    - exists o. split; [exact E1|]. split; [exact E2|]. split; [exact E3|]. rewrite E4. cbn -[to_symmetric tab2]. rewrite to_symmetric_tab by auto. reflexivity.
  Qed.
End Entries.

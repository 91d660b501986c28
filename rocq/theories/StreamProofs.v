(** * Histories of calls on well-shaped streams: checkpoints, counters, shape errors (law-free) *)
From Coq Require Import ZArith Bool String List Lia Arith.
From Verif Require Import Num Numpy PyVal LinalgModel StateModel BaseModel Estimators RegistryModel
  Spec ListLemmas BaseProofs Shapes ClassShapes BlockShapes.
Import ListNotations.
Local Open Scope string_scope.

Section Bisim.
  Context {N : Num} {C : EstClass N} (wf : nat -> c_St C -> Prop) (R : c_St C -> c_St C -> Prop).
  Context (HB : behaved_by C wf R).
  Implicit Types (o : inst C).

  Definition ropt (a b : option (c_St C)) : Prop :=
    match a, b with Some s, Some s' => R s s' | None, None => True | _, _ => False end.
  Definition sim (o o' : inst C) : Prop :=
    i_params o = i_params o' /\ ropt (i_state o) (i_state o') /\ i_prev o = i_prev o'.

  (** The relation extended with equality: after a fresh [init] both sides hold the same state. *)
  Definition RE (a b : c_St C) : Prop := R a b \/ a = b.
  Lemma RE_bisim : state_bisim C RE.
  Proof.
    intros s s' [H|<-].
    - destruct (bh_sim _ _ _ HB s s' H) as (A1 & A2 & A3 & A4 & A5). split; [|auto].
      intros P x. specialize (A1 P x). destruct (c_update C P s x), (c_update C P s' x); auto. now left.
    - split; [|auto]. intros P x. destruct (c_update C P s x); auto. now right.
  Qed.
  Definition ropt' (a b : option (c_St C)) : Prop :=
    match a, b with Some s, Some s' => RE s s' | None, None => True | _, _ => False end.
  Definition sim' (o o' : inst C) : Prop :=
    i_params o = i_params o' /\ ropt' (i_state o) (i_state o') /\ i_prev o = i_prev o'.

  Lemma absorb_sim o o' x :
    sim' o o' -> snd (absorb o x) = snd (absorb o' x) /\ sim' (fst (absorb o x)) (fst (absorb o' x)).
  Proof.
    destruct o as [P s nf pv], o' as [P' s' nf' pv']. intros (H1 & H2 & H3). simpl in *. subst.
    unfold absorb. cbn [i_state i_params i_nfeat i_prev].
    destruct s as [s|], s' as [s'|]; simpl in H2; try contradiction.
    - destruct (RE_bisim s s' H2) as (A1 & _). specialize (A1 P' x).
      destruct (c_update C P' s x), (c_update C P' s' x); try contradiction; simpl;
        (split; [try reflexivity; now subst|repeat split; auto]).
    - destruct (c_init C P' (length x)) as [s0|]; simpl; [|split; auto; repeat split; auto].
      destruct (c_update C P' s0 x); simpl; split; auto; repeat split; auto; simpl; right; reflexivity.
  Qed.

  Lemma fit_row_sim o o' x :
    sim' o o' -> snd (fit_row o x) = snd (fit_row o' x) /\ sim' (fst (fit_row o x)) (fst (fit_row o' x)).
  Proof.
    intros H. pose proof H as (H1 & H2 & H3). unfold fit_row. rewrite <- H1, <- H3.
    destruct (c_diff C (i_params o)); [|now apply absorb_sim].
    destruct (i_prev o) as [pv|].
    - destruct (vsub x pv); [|simpl; auto]. apply absorb_sim. repeat split; auto.
    - simpl. repeat split; auto.
  Qed.

  Lemma fit_rows_sim o o' rows :
    sim' o o' ->
    snd (fit_rows o rows) = snd (fit_rows o' rows) /\ sim' (fst (fit_rows o rows)) (fst (fit_rows o' rows)).
  Proof.
    revert o o'; induction rows as [|x rows IH]; intros o o' H; simpl; auto.
    destruct (fit_row_sim o o' x H) as [E1 E2].
    destruct (fit_row o x) as [o1 r1], (fit_row o' x) as [o2 r2]. simpl in *. subst r2.
    destruct r1; simpl; auto.
  Qed.

  Lemma do_call_sim o o' c :
    sim' o o' -> snd (do_call o c) = snd (do_call o' c) /\ sim' (fst (do_call o c)) (fst (do_call o' c)).
  Proof.
    intros H. destruct c as [X|X|P]; simpl.
    - unfold partial_fit. destruct (as_rows X); simpl; auto. now apply fit_rows_sim.
    - destruct H as (H1 & H2 & H3). unfold fit. rewrite H1.
      destruct X; simpl; try (split; auto; repeat split; auto; fail).
      apply fit_rows_sim. repeat split; auto.
    - destruct H as (H1 & H2 & H3). split; auto. repeat split; auto.
  Qed.

  Lemma run_sim o o' cs :
    sim' o o' -> snd (run o cs) = snd (run o' cs) /\ sim' (fst (run o cs)) (fst (run o' cs)).
  Proof.
    revert o o'; induction cs as [|c cs IH]; intros o o' H; simpl; auto.
    destruct (do_call_sim o o' c H) as [E1 E2].
    destruct (do_call o c) as [o1 r1], (do_call o' c) as [o2 r2]. simpl in E1, E2. subst r2.
    destruct (IH o1 o2 E2) as [E3 E4].
    destruct (run o1 cs) as [o3 r3], (run o2 cs) as [o4 r4]. simpl in *. subst. auto.
  Qed.

  Lemma sim_same_fitted L o o' : sim' o o' -> same_fitted L o o'.
  Proof.
    destruct o as [P s nf pv], o' as [P' s' nf' pv']. intros (H1 & H2 & H3). simpl in *. subst.
    set (o := mkInst P' s nf pv'). set (o' := mkInst P' s' nf' pv').
    assert (G : forall B (f : c_St C -> res B), (forall a b, RE a b -> f a = f b) ->
                bind (fitted_state o) f = bind (fitted_state o') f).
    { intros B f Hf. unfold fitted_state, o, o'. cbn [i_state].
      destruct s as [s|], s' as [s'|]; simpl in H2; try contradiction; auto.
      destruct (RE_bisim s s' H2) as (_ & _ & _ & A4 & _). rewrite A4.
      destruct (get_or 0 (c_nsamples C s')) as [n|]; simpl; auto. destruct (Nat.ltb n 1); simpl; auto. }
    assert (Lc : location_ o = location_ o').
    { apply G. intros a b H. apply (RE_bisim a b H). }
    assert (Cv : covariance_ o = covariance_ o').
    { unfold covariance_. apply G. intros a b H. destruct (RE_bisim a b H) as (_ & A2 & _). simpl. now rewrite A2. }
    assert (Pr : precision_ L o = precision_ L o').
    { unfold precision_. destruct (c_prec C) eqn:E.
      - apply G. intros a b H. destruct (RE_bisim a b H) as (_ & _ & _ & _ & A5). simpl. now apply A5.
      - now rewrite Cv. }
    assert (Ma : forall X, mahalanobis L o X = mahalanobis L o' X).
    { intros X. unfold mahalanobis. now rewrite Pr, Lc. }
    repeat split; auto.
    - unfold n_samples_, o, o'. cbn [i_state].
      destruct s as [s|], s' as [s'|]; simpl in H2; try contradiction; auto. apply (RE_bisim s s' H2).
    - unfold correlation_. now rewrite Cv.
    - intros X. unfold score. destruct (as_rows X); simpl; auto. now rewrite Pr, Ma.
  Qed.

  Lemma sim_indist L o o' : sim o o' -> indistinguishable L o o'.
  Proof.
    intros (H1 & H2 & H3) cs.
    assert (H : sim' o o').
    { repeat split; auto. unfold ropt' , ropt, RE in *. destruct (i_state o), (i_state o'); auto. }
    destruct (run_sim o o' cs H). split; auto. now apply sim_same_fitted.
  Qed.

  (** ** Invariant of reachable instances *)
  Definition good (p : nat) (o : inst C) : Prop :=
    (forall s, i_state o = Some s -> wf p s /\ i_nfeat o = Some p) /\
    (forall x, i_prev o = Some x -> length x = p).

  Lemma absorb_good p o x : 1 <= p -> good p o -> length x = p -> good p (fst (absorb o x)).
  Proof.
    intros Hp [G1 G2] Hx. unfold absorb. destruct (i_state o) as [s|] eqn:Es.
    - destruct (c_update C (i_params o) s x) as [s1|e] eqn:Eu; cbn [fst]; [|split; auto; now rewrite Es].
      destruct (G1 s eq_refl) as [W Hn]. split; auto. simpl. intros s' [= <-].
      destruct (bh_update _ _ _ HB _ _ _ _ _ Hp W Hx Eu) as [W' _]. auto.
    - destruct (c_init C (i_params o) (length x)) as [s0|] eqn:Ei.
      + rewrite Hx in *. destruct (bh_init _ _ _ HB _ _ _ Hp Ei) as [W0 _].
        destruct (c_update C (i_params o) s0 x) as [s1|e] eqn:Eu; split; simpl; auto; intros s' [= <-].
        * destruct (bh_update _ _ _ HB _ _ _ _ _ Hp W0 Hx Eu) as [W' _]. auto.
        * auto.
      + split; simpl; auto. discriminate.
  Qed.

  Lemma fit_row_good p o x : 1 <= p -> good p o -> length x = p -> good p (fst (fit_row o x)).
  Proof.
    intros Hp G Hx. unfold fit_row. destruct (c_diff C (i_params o)); [|now apply absorb_good].
    destruct G as [G1 G2]. destruct (i_prev o) as [pv|] eqn:Ep.
    - destruct (vsub x pv) as [d|] eqn:Ed.
      + apply absorb_good; auto.
        * split; simpl; auto. intros y [= <-]; auto.
        * unfold vsub in Ed. rewrite bc_eqlen in Ed by (rewrite (G2 pv eq_refl); auto).
          injection Ed as <-. rewrite zipw_length; auto. rewrite (G2 pv eq_refl); auto.
      + simpl. split; auto. now rewrite Ep.
    - simpl. split; simpl; auto. intros y [= <-]; auto.
  Qed.

  Lemma fit_rows_good p o rows : 1 <= p -> good p o -> rows_of_length p rows -> good p (fst (fit_rows o rows)).
  Proof.
    intros Hp G Hr. revert o G. induction Hr as [|x rows Hx Hr IH]; intros o G; simpl; auto.
    pose proof (fit_row_good p o x Hp G Hx) as G'. destruct (fit_row o x) as [o1 [u|e]]; simpl; auto.
  Qed.

  Lemma do_call_good p o c : 1 <= p -> good p o -> rows_of_length p (call_rows c) -> good p (fst (do_call o c)).
  Proof.
    intros Hp G Hr. destruct c as [X|X|P]; simpl in *.
    - unfold partial_fit. destruct (as_rows X); simpl in *; auto. now apply fit_rows_good.
    - unfold fit. destruct X as [v|rows|k]; simpl in *; try (split; simpl; discriminate).
      apply fit_rows_good; auto. split; simpl; discriminate.
    - exact G.
  Qed.

  Lemma run_good p o cs : 1 <= p -> good p o -> history_of_length p cs -> good p (fst (run o cs)).
  Proof.
    intros Hp G H. revert o G. induction H as [|c cs Hc H IH]; intros o G; simpl; auto.
    pose proof (do_call_good p o c Hp G Hc) as G'. destruct (do_call o c) as [o1 r1]. simpl in G'.
    specialize (IH o1 G'). destruct (run o1 cs). exact IH.
  Qed.

  Lemma new_good p P : good p (new P).
  Proof. split; simpl; discriminate. Qed.

  (** The differencing buffer stays empty when differencing is never on. *)
  Definition quiet (o : inst C) : Prop := c_diff C (i_params o) = false /\ i_prev o = None.
  Lemma fit_rows_quiet o rows : quiet o -> quiet (fst (fit_rows o rows)).
  Proof.
    revert o; induction rows as [|x rows IH]; intros o Q; simpl; auto.
    assert (Q' : quiet (fst (fit_row o x))).
    { destruct Q as [Q1 Q2]. unfold fit_row. rewrite Q1. unfold absorb.
      destruct (i_state o) as [s|].
      - destruct (c_update _ _ _ _); split; auto.
      - destruct (c_init _ _ _) as [s0|]; [destruct (c_update _ _ _ _)|]; split; auto. }
    destruct (fit_row o x) as [o1 [u|e]]; simpl in *; auto.
  Qed.
  Lemma run_quiet o cs : quiet o -> never_diff cs -> quiet (fst (run o cs)).
  Proof.
    intros Q H. revert o Q. induction H as [|c cs Hc H IH]; intros o Q; simpl; auto.
    assert (Q' : quiet (fst (do_call o c))).
    { destruct c as [X|X|P]; simpl.
      - unfold partial_fit. destruct (as_rows X); simpl; auto. now apply fit_rows_quiet.
      - unfold fit. destruct X; simpl; try (split; simpl; auto; apply Q).
        apply fit_rows_quiet. split; simpl; auto. apply Q.
      - split; simpl; auto. apply Q. }
    destruct (do_call o c) as [o1 r1]. simpl in Q'. specialize (IH o1 Q'). destruct (run o1 cs). exact IH.
  Qed.

  (** ** Checkpoints *)
  Lemma get_set_round p o P0 : 1 <= p -> good p o ->
    exists j o', get_state o = Ok j /\ set_state (new P0) j = Ok o' /\ i_params o' = P0 /\
                 ropt (i_state o) (i_state o') /\ i_prev o' = None /\
                 (i_state o <> None -> i_nfeat o' = i_nfeat o).
  Proof.
    intros Hp [G1 G2]. unfold get_state. destruct (i_state o) as [s|] eqn:Es.
    - destruct (G1 s eq_refl) as [W Hn]. destruct (bh_round _ _ _ HB p s Hp W) as (j & s' & E1 & E2 & E3).
      rewrite E1. simpl. eexists _, _. split; [reflexivity|]. simpl. rewrite E2. simpl.
      split; [reflexivity|]. simpl. repeat split; auto.
    - eexists _, _. split; [reflexivity|]. split; [reflexivity|]. simpl. repeat split; auto. congruence.
  Qed.

  Lemma checkpoint L p P cs :
    1 <= p -> c_diff C P = false -> history_of_length p cs -> never_diff cs ->
    let o := fst (run (new P) cs) in
    exists j o', get_state o = Ok j /\ set_state (new (i_params o)) j = Ok o' /\
                 indistinguishable L o o'.
  Proof.
    intros Hp Hd Hc Hn o.
    assert (G : good p o) by (apply run_good; auto using new_good).
    assert (Q : quiet o) by (apply run_quiet; auto; split; auto).
    destruct (get_set_round p o (i_params o) Hp G) as (j & o' & E1 & E2 & E3 & E4 & E5 & _).
    exists j, o'. split; auto. split; auto. apply sim_indist. split; auto. split; auto.
    rewrite E5. apply Q.
  Qed.

  Lemma pickle_round L p P cs :
    1 <= p -> history_of_length p cs ->
    let o := fst (run (new P) cs) in
    exists d o', getstate o = Ok d /\ setstate d = Ok o' /\ i_nfeat o' = i_nfeat o /\
                 indistinguishable L o o'.
  Proof.
    intros Hp Hc o.
    assert (G : good p o) by (apply run_good; auto using new_good).
    destruct (get_set_round p o (i_params o) Hp G) as (j & o' & E1 & E2 & E3 & E4 & E5 & E6).
    unfold getstate. rewrite E1. cbn [bind].
    unfold setstate.
    destruct (i_prev o) as [x|] eqn:Ep; eexists.
    - eexists. split; [reflexivity|]. cbn [pk_params pk_state pk_nfeat pk_prev].
      rewrite E2. cbn [bind]. rewrite np_array_A1. cbn [bind].
      split; [reflexivity|]. split; [reflexivity|].
      apply sim_indist. split; [|split]; simpl; auto.
    - eexists. split; [reflexivity|]. cbn [pk_params pk_state pk_nfeat pk_prev].
      rewrite E2. cbn [bind]. split; [reflexivity|]. split; [reflexivity|].
      apply sim_indist. split; [|split]; simpl; auto.
  Qed.

  (** ** Counter *)
  Lemma absorbed_count_nodiff p P rows o :
    1 <= p -> c_diff C P = false -> rows_of_length p rows -> fit_rows (new P) rows = (o, Ok tt) ->
    n_samples_ o = Ok (length rows) /\ i_params o = P /\
    (rows = [] -> i_state o = None) /\ (rows <> [] -> exists s, i_state o = Some s /\ wf p s).
  Proof.
    intros Hp Hd Hr. destruct rows as [|x rows].
    { intros [= <-]. repeat split; auto; congruence. }
    inversion Hr as [|? ? Hx Hr']; subst. set (p := length x) in *.
    cbn [fit_rows]. unfold fit_row, new, absorb. cbn [i_params i_state i_nfeat i_prev]. rewrite Hd.
    fold p. destruct (c_init C P p) as [s0|] eqn:Ei; [|discriminate].
    destruct (bh_init _ _ _ HB _ _ _ Hp Ei) as [W0 N0].
    destruct (c_update C P s0 x) as [s1|] eqn:Eu; [|discriminate].
    destruct (bh_update _ _ _ HB _ _ _ _ _ Hp W0 eq_refl Eu) as [W1 (n & N1 & N2)].
    rewrite N0 in N1. injection N1 as <-. rewrite fit_rows_foldU by auto. intros [= <- E].
    cbn [n_samples_ i_state i_params length].
    enough (K : forall rows s k, rows_of_length p rows -> wf p s -> c_nsamples C s = Ok k ->
                snd (foldU P s rows) = Ok tt -> c_nsamples C (fst (foldU P s rows)) = Ok (k + length rows)
                /\ wf p (fst (foldU P s rows))).
    { destruct (K rows s1 1 Hr' W1 N2 E) as [K1 K2]. repeat split; auto; try congruence. eauto. }
    clear -HB Hp. induction rows as [|y rows IH]; intros s k Hr W Hk E; simpl in *.
    - rewrite Nat.add_0_r. auto.
    - inversion Hr as [|? ? Hy Hr']; subst.
      destruct (c_update C P s y) as [s'|] eqn:Eu; [|discriminate].
      destruct (bh_update _ _ _ HB _ _ _ _ _ Hp W Hy Eu) as [W' (n & N1 & N2)].
      rewrite Hk in N1. injection N1 as <-.
      replace (k + S (length rows)) with (S k + length rows) by lia. apply IH; auto.
  Qed.
End Bisim.

(** * C105: which parameters act when

    [set_params] on an instance in use: the parameters read only when [covariance_] is asked for act at
    once and as if they had been there from the start; the rate is fixed by the first row; Huber's
    cutoff and the block count of SchurLedoitWolf are read by the updates that follow the burn-in. *)
From Coq Require Import ZArith Bool String List Arith Lia.
From Verif Require Import Num Numpy PyVal LinalgModel StateModel BaseModel Estimators RegistryModel Spec.
From Verif Require Import ListLemmas BaseProofs RegistryProofs.
Import ListNotations.

(** The calls of a history that bring data, and their outcomes. *)
Definition brings_data {N} {C : EstClass N} (c : call C) : bool :=
  match c with SetParams _ _ => false | _ => true end.
Definition data_calls {N} {C : EstClass N} (cs : list (call C)) : list (call C) := filter brings_data cs.
Definition data_outcomes {N} {C : EstClass N} (cs : list (call C)) (rs : list (res unit)) : list (res unit) :=
  map snd (filter (fun cr => brings_data (fst cr)) (combine cs rs)).
(** Every [set_params] of the history stays within [ok]. *)
Definition settings_within {N} {C : EstClass N} (ok : c_P C -> Prop) (cs : list (call C)) : Prop :=
  Forall (fun c => match c with SetParams _ Q => ok Q | _ => True end) cs.

Section ReadTime.
  Context {N : Num} {C : EstClass N}.
  (** two settings that learn alike: same differencing, same initial state, same update *)
  Definition alike (P P' : c_P C) : Prop :=
    c_diff C P = c_diff C P' /\ (forall n, c_init C P n = c_init C P' n) /\
    (forall s x, c_update C P s x = c_update C P' s x).
  Context (P' : c_P C).

  Lemma absorb_re (o : inst C) x : alike (i_params o) P' ->
    i_params (fst (absorb o x)) = i_params o /\
    set_params (fst (absorb o x)) P' = fst (absorb (set_params o P') x) /\
    snd (absorb o x) = snd (absorb (set_params o P') x).
  Proof.
    intros (Hd & Hi & Hu). destruct o as [P st nf pv]. cbn in *.
    unfold absorb. cbn. destruct st as [s|].
    - rewrite <- Hu. destruct (c_update C P s x); cbn; auto.
    - rewrite <- Hi. destruct (c_init C P (length x)) as [s0|e]; cbn; auto.
      rewrite <- Hu. destruct (c_update C P s0 x); cbn; auto.
  Qed.
  Lemma fit_row_re (o : inst C) x : alike (i_params o) P' ->
    i_params (fst (fit_row o x)) = i_params o /\
    set_params (fst (fit_row o x)) P' = fst (fit_row (set_params o P') x) /\
    snd (fit_row o x) = snd (fit_row (set_params o P') x).
  Proof.
    intros H. pose proof H as (Hd & _). unfold fit_row.
    assert (E' : c_diff C (i_params (set_params o P')) = c_diff C (i_params o)) by (cbn; congruence).
    rewrite E'. destruct (c_diff C (i_params o)).
    - cbn [set_params i_prev].
      destruct (i_prev o) as [pv|]; [|cbn; auto].
      destruct (vsub x pv) as [d|e]; [|cbn; auto].
      exact (absorb_re (mkInst (i_params o) (i_state o) (i_nfeat o) (Some x)) d H).
    - now apply absorb_re.
  Qed.
  Lemma fit_rows_re rows : forall o : inst C, alike (i_params o) P' ->
    i_params (fst (fit_rows o rows)) = i_params o /\
    set_params (fst (fit_rows o rows)) P' = fst (fit_rows (set_params o P') rows) /\
    snd (fit_rows o rows) = snd (fit_rows (set_params o P') rows).
  Proof.
    induction rows as [|x rows IH]; intros o H; [cbn; auto|].
    destruct (fit_row_re o x H) as (A1 & A2 & A3). cbn [fit_rows].
    destruct (fit_row o x) as [o1 [u|e]], (fit_row (set_params o P') x) as [o2 r2]; cbn in *; subst.
    - assert (H1 : alike (i_params o1) P') by congruence.
      destruct (IH o1 H1) as (B1 & B2 & B3). repeat split; try congruence. 
    - auto.
  Qed.
  Lemma do_call_re (o : inst C) c : alike (i_params o) P' -> brings_data c = true ->
    i_params (fst (do_call o c)) = i_params o /\
    set_params (fst (do_call o c)) P' = fst (do_call (set_params o P') c) /\
    snd (do_call o c) = snd (do_call (set_params o P') c).
  Proof.
    intros H Hc. destruct c as [X|X|Q]; cbn in Hc |- *; try discriminate.
    - unfold partial_fit. destruct (as_rows X); [|cbn; auto]. now apply fit_rows_re.
    - unfold fit. destruct X as [v|rows|n]; try (cbn; auto; fail).
      unfold partial_fit. cbn [as_rows].
      exact (fit_rows_re rows (mkInst (i_params o) None (i_nfeat o) None) H).
  Qed.
  Lemma run_re cs : forall o : inst C, alike (i_params o) P' -> settings_within (fun Q => alike Q P') cs ->
    set_params (fst (run o cs)) P' = fst (run (set_params o P') (data_calls cs)) /\
    data_outcomes cs (snd (run o cs)) = snd (run (set_params o P') (data_calls cs)).
  Proof.
    induction cs as [|c cs IH]; intros o H Hs; [cbn; auto|].
    assert (Hs' := Forall_inv_tail Hs). pose proof (Forall_inv Hs) as Hc.
    unfold data_calls, data_outcomes in *. cbn [filter run].
    destruct (brings_data c) eqn:Eb.
    - destruct (do_call_re o c H Eb) as (A1 & A2 & A3).
      cbn [run]. destruct (do_call o c) as [o1 r1], (do_call (set_params o P') c) as [o2 r2]. cbn in A1, A2, A3.
      assert (H1 : alike (i_params o1) P') by congruence.
      destruct (IH o1 H1 Hs') as (B1 & B2). subst o2 r2.
      destruct (run o1 cs) as [o3 rs3], (run (set_params o1 P') (filter brings_data cs)) as [o4 rs4].
      cbn in *. rewrite Eb. cbn. split; congruence.
    - destruct c as [X|X|Q]; try discriminate. cbn [do_call].
      assert (H1 : alike (i_params (set_params o Q)) P') by exact Hc.
      destruct (IH (set_params o Q) H1 Hs') as (B1 & B2).
      destruct (run (set_params o Q) cs) as [o3 rs3]. cbn in *. auto.
  Qed.
End ReadTime.

(** ** Parameters read with the covariance: as if they had been there from the start *)
Definition read_time {N} {C : EstClass N} (same : c_P C -> c_P C -> Prop) : Prop :=
  forall (P P' : c_P C) (cs : list (call C)),
    same P P' -> settings_within (fun Q => same Q P') cs ->
    set_params (fst (run (new P) cs)) P' = fst (run (new P') (data_calls cs)) /\
    data_outcomes cs (snd (run (new P) cs)) = snd (run (new P') (data_calls cs)).

Lemma read_time_alike {N} {C : EstClass N} (same : c_P C -> c_P C -> Prop) :
  (forall P P', same P P' -> alike P P') -> read_time same.
Proof.
  intros H P P' cs HP Hs. apply (run_re P' cs (new P)); [exact (H _ _ HP)|].
  eapply Forall_impl; [|exact Hs]. intros [X|X|Q]; cbn; auto.
Qed.

Section Classes.
  Context {N : Num} (L : LinAlg N).
Theorem C105_shrunk_read_time : read_time (C := Shrunk (N := N))
    (fun P P' => shr_r P = shr_r P' /\ shr_diff P = shr_diff P').
  Proof. apply read_time_alike. intros P P' [E1 E2]. repeat split; cbn; auto. intros n. now rewrite E1. Qed.
Theorem C105_schur_read_time : read_time (C := Schur L)
    (fun P P' => sch_r P = sch_r P' /\ sch_diff P = sch_diff P').
  Proof. apply read_time_alike. intros P P' [E1 E2]. repeat split; cbn; auto. intros n. now rewrite E1. Qed.
Theorem C105_schur_conditional_read_time : read_time (C := SchurCond L)
    (fun P P' => blk_r P = blk_r P' /\ blk_diff P = blk_diff P').
  Proof. apply read_time_alike. intros P P' [E1 E2]. repeat split; cbn; auto. intros n. now rewrite E1. Qed.
End Classes.

(** ** The rate is fixed by the first row *)
(** [P'] is [P] but for the rate. *)
Definition rate_frozen {N} (L : LinAlg N) {C : EstClass N} (but_rate : c_P C -> c_P C -> Prop) : Prop :=
  forall (o : inst C) P' (batches : list (list (vec N))),
    i_state o <> None -> but_rate (i_params o) P' ->
    let feed := map (fun b => PartialFit C (In2 b)) batches in
    snd (run (set_params o P') feed) = snd (run o feed) /\
    same_fitted L (fst (run (set_params o P') feed)) (fst (run o feed)).

Lemma rate_frozen_intro {N} (L : LinAlg N) {C : EstClass N} (br : c_P C -> c_P C -> Prop) :
  (forall P P', br P P' -> c_diff C P = c_diff C P' /\
     (forall s x, c_update C P s x = c_update C P' s x) /\
     (forall s, c_cov C P s = c_cov C P' s) /\ (forall s, c_mean C P s = c_mean C P' s) /\
     (forall f, c_prec C = Some f -> forall s, f P s = f P' s)) -> rate_frozen L br.
Proof.
  intros H o P' batches Hs HP. cbv zeta.
  destruct (H _ _ HP) as (Hd & F1 & F2 & F3 & F4).
  assert (HF : (forall s x, c_update C P' s x = c_update C (i_params o) s x) /\
    (forall s, c_cov C P' s = c_cov C (i_params o) s) /\ (forall s, c_mean C P' s = c_mean C (i_params o) s) /\
    (forall f, c_prec C = Some f -> forall s, f P' s = f (i_params o) s)).
  { repeat split; intros; symmetry; auto. }
  assert (Z : fz P' (i_params o) (set_params o P') o) by (repeat split; auto).
  remember (i_params o) as P0 eqn:EP. clear EP.
  set (a := set_params o P') in *. clearbody a. clear Hs. rename o into b. revert a b Z.
  induction batches as [|rows batches IH]; intros a b Z.
  - cbn. split; auto. exact (fz_fitted P' P0 HF L a b Z).
  - cbn [map run do_call]. unfold partial_fit. cbn [as_rows].
    destruct (fit_rows_fz P' P0 HF (eq_sym Hd) a b rows Z) as [E1 E2].
    destruct (fit_rows a rows) as [a1 r1], (fit_rows b rows) as [b1 r2]. cbn in E1, E2. subst r2.
    destruct (IH a1 b1 E2) as [G1 G2].
    destruct (run a1 _) as [a2 rs1], (run b1 _) as [b2 rs2]. cbn in *. subst. auto.
Qed.

Section Rate.
  Context {N : Num} (L : LinAlg N).
Theorem C105_shrunk_rate : rate_frozen L (C := Shrunk (N := N))
    (fun P P' => exists r, P' = mkShrP r (shr_delta P) (shr_target P) (shr_diff P)).
  Proof. apply rate_frozen_intro. intros P P' [r ->]. repeat split; auto. intros f Hf; discriminate. Qed.
Theorem C105_schur_rate : rate_frozen L (C := Schur L)
    (fun P P' => exists r, P' = mkSchP r (sch_n_blocks P) (sch_gamma P) (sch_interp P) (sch_diff P)).
  Proof. apply rate_frozen_intro. intros P P' [r ->]. repeat split; auto. intros f Hf; discriminate. Qed.
Theorem C105_schur_conditional_rate : rate_frozen L (C := SchurCond L)
    (fun P P' => exists r, P' = mkBlkP r (blk_n_blocks P) (blk_diff P)).
  Proof. apply rate_frozen_intro. intros P P' [r ->]. repeat split; auto. intros f Hf; discriminate. Qed.
Theorem C105_schur_lw_rate : rate_frozen L (C := SchurLW L)
    (fun P P' => exists r, P' = mkBlkP r (blk_n_blocks P) (blk_diff P)).
  Proof. apply rate_frozen_intro. intros P P' [r ->]. repeat split; auto. intros f Hf; discriminate. Qed.
Theorem C105_huber_rate : rate_frozen L (C := Huber L)
    (fun P P' => exists r, P' = mkHubP r (hub_c P) (hub_diff P)).
  Proof. apply rate_frozen_intro. intros P P' [r ->]. repeat split; auto. intros f Hf; discriminate. Qed.
End Rate.

(** ** Parameters the updates read only after the burn-in *)
Section BurnIn.
  Context {N : Num} {C : EstClass N}.
  Context (ns nb_of : c_St C -> res nat) (nb : nat).
  (** the two settings learn alike as long as the state has fewer than [nb] samples *)
  Definition alike_burn (P P' : c_P C) : Prop :=
    c_diff C P = c_diff C P' /\ (forall n, c_init C P n = c_init C P' n) /\
    (forall n s, c_init C P n = Ok s -> ns s = Ok 0 /\ nb_of s = Ok nb) /\
    (forall s m x, ns s = Ok m -> nb_of s = Ok nb -> m < nb ->
       c_update C P s x = c_update C P' s x /\
       (forall s', c_update C P s x = Ok s' -> ns s' = Ok (S m) /\ nb_of s' = Ok nb)).
  Context (P' : c_P C).
  (** at most [k] samples absorbed *)
  Definition within (k : nat) (o : inst C) : Prop :=
    match i_state o with None => True | Some s => nb_of s = Ok nb /\ exists m, ns s = Ok m /\ m <= k end.

  Lemma absorb_burn k (o : inst C) x : alike_burn (i_params o) P' -> within k o -> k < nb ->
    i_params (fst (absorb o x)) = i_params o /\ within (S k) (fst (absorb o x)) /\
    set_params (fst (absorb o x)) P' = fst (absorb (set_params o P') x) /\
    snd (absorb o x) = snd (absorb (set_params o P') x).
  Proof.
    intros (Hd & Hi & Hz & Hu) Hw Hk. destruct o as [P st nf pv]. cbn in *.
    unfold absorb. unfold within in Hw. cbn in Hw |- *. destruct st as [s|].
    - destruct Hw as (Hb & m & Hm & Hmk). assert (m < nb) by lia.
      destruct (Hu s m x Hm Hb H) as [E1 E2]. rewrite <- E1.
      destruct (c_update C P s x) as [s1|e]; cbn; refine (conj _ (conj _ (conj _ _))); auto; cbn.
      + destruct (E2 s1 eq_refl) as [A1 A2]. split; auto. exists (S m). split; auto. lia.
      + split; auto. exists m. split; auto.
    - rewrite <- Hi. destruct (c_init C P (length x)) as [s0|e] eqn:E0; cbn; auto.
      destruct (Hz _ _ E0) as [Z1 Z2]. assert (0 < nb) by lia.
      destruct (Hu s0 0 x Z1 Z2 H) as [E1 E2]. rewrite <- E1.
      destruct (c_update C P s0 x) as [s1|e]; cbn; refine (conj _ (conj _ (conj _ _))); auto; cbn.
      + destruct (E2 s1 eq_refl) as [A1 A2]. split; auto. exists 1. split; auto. lia.
      + split; auto. exists 0. split; auto. lia.
  Qed.
  Lemma within_le k k' (o : inst C) : within k o -> k <= k' -> within k' o.
  Proof. unfold within. destruct (i_state o); auto. intros (A & m & B & D) E. split; auto. exists m. split; auto. lia. Qed.
  Lemma fit_row_burn k (o : inst C) x : alike_burn (i_params o) P' -> within k o -> k < nb ->
    i_params (fst (fit_row o x)) = i_params o /\ within (S k) (fst (fit_row o x)) /\
    set_params (fst (fit_row o x)) P' = fst (fit_row (set_params o P') x) /\
    snd (fit_row o x) = snd (fit_row (set_params o P') x).
  Proof.
    intros H Hw Hk. pose proof H as (Hd & _). unfold fit_row.
    assert (E' : c_diff C (i_params (set_params o P')) = c_diff C (i_params o)) by (cbn; congruence).
    rewrite E'. assert (Hw' : within (S k) o) by (eapply within_le; eauto).
    destruct (c_diff C (i_params o)).
    - cbn [set_params i_prev].
      destruct (i_prev o) as [pv|]; [|cbn; auto].
      destruct (vsub x pv) as [d|e]; [|cbn; auto].
      exact (absorb_burn k (mkInst (i_params o) (i_state o) (i_nfeat o) (Some x)) d H Hw Hk).
    - now apply absorb_burn.
  Qed.
  Lemma fit_rows_burn rows : forall k (o : inst C), alike_burn (i_params o) P' -> within k o -> k + length rows <= nb ->
    i_params (fst (fit_rows o rows)) = i_params o /\ within (k + length rows) (fst (fit_rows o rows)) /\
    set_params (fst (fit_rows o rows)) P' = fst (fit_rows (set_params o P') rows) /\
    snd (fit_rows o rows) = snd (fit_rows (set_params o P') rows).
  Proof.
    induction rows as [|x rows IH]; intros k o H Hw Hk.
    { cbn. repeat split; auto. eapply within_le; eauto. lia. }
    cbn [length] in *. assert (Hk1 : k < nb) by lia.
    destruct (fit_row_burn k o x H Hw Hk1) as (A1 & A2 & A3 & A4). cbn [fit_rows].
    destruct (fit_row o x) as [o1 [u|e]], (fit_row (set_params o P') x) as [o2 r2]; cbn in *; subst.
    - assert (H1 : alike_burn (i_params o1) P') by congruence. assert (Hk2 : S k + length rows <= nb) by lia.
      destruct (IH (S k) o1 H1 A2 Hk2) as (B1 & B2 & B3 & B4).
      repeat split; try congruence. eapply within_le; eauto. lia.
    - repeat split; auto. eapply within_le; eauto. lia.
  Qed.
  Definition rows_in (cs : list (call C)) : nat := list_sum (map (fun c => length (call_rows c)) cs).
  Lemma do_call_burn k (o : inst C) c : alike_burn (i_params o) P' -> within k o ->
    k + length (call_rows c) <= nb -> brings_data c = true ->
    i_params (fst (do_call o c)) = i_params o /\ within (k + length (call_rows c)) (fst (do_call o c)) /\
    set_params (fst (do_call o c)) P' = fst (do_call (set_params o P') c) /\
    snd (do_call o c) = snd (do_call (set_params o P') c).
  Proof.
    intros H Hw Hk Hc. destruct c as [X|X|Q]; cbn in Hc |- *; try discriminate; cbn in Hk.
    - unfold partial_fit. destruct (as_rows X) as [rows|e] eqn:E.
      + now apply fit_rows_burn.
      + cbn. repeat split; auto. eapply within_le; eauto. lia.
    - unfold fit. destruct X as [v|rows|n]; try (cbn; repeat split; auto; fail).
      unfold partial_fit. cbn [as_rows] in *.
      exact (fit_rows_burn rows k (mkInst (i_params o) None (i_nfeat o) None) H I Hk).
  Qed.
  Lemma run_burn cs : forall k (o : inst C), alike_burn (i_params o) P' -> within k o -> k + rows_in cs <= nb ->
    settings_within (fun Q => alike_burn Q P') cs ->
    set_params (fst (run o cs)) P' = fst (run (set_params o P') (data_calls cs)) /\
    data_outcomes cs (snd (run o cs)) = snd (run (set_params o P') (data_calls cs)).
  Proof.
    induction cs as [|c cs IH]; intros k o H Hw Hk Hs; [cbn; auto|].
    assert (Hs' := Forall_inv_tail Hs). pose proof (Forall_inv Hs) as Hc.
    unfold data_calls, data_outcomes, rows_in in *. cbn [filter run map list_sum fold_right] in *.
    assert (Hk0 : k + length (call_rows c) <= nb) by lia.
    destruct (brings_data c) eqn:Eb.
    - destruct (do_call_burn k o c H Hw Hk0 Eb) as (A1 & A2 & A3 & A4).
      cbn [run]. destruct (do_call o c) as [o1 r1], (do_call (set_params o P') c) as [o2 r2]. cbn in A1, A2, A3, A4.
      assert (H1 : alike_burn (i_params o1) P') by congruence.
      assert (Hk1 : (k + length (call_rows c)) + list_sum (map (fun c => length (call_rows c)) cs) <= nb) by (unfold list_sum in *; lia).
      destruct (IH _ o1 H1 A2 Hk1 Hs') as (B1 & B2). subst o2 r2.
      destruct (run o1 cs) as [o3 rs3], (run (set_params o1 P') (filter brings_data cs)) as [o4 rs4].
      cbn in *. rewrite Eb. cbn. split; congruence.
    - destruct c as [X|X|Q]; try discriminate. cbn [do_call].
      assert (H1 : alike_burn (i_params (set_params o Q)) P') by exact Hc.
      destruct (IH k (set_params o Q) H1 Hw Hk Hs') as (B1 & B2).
      destruct (run (set_params o Q) cs) as [o3 rs3]. cbn in *. auto.
  Qed.
End BurnIn.

(** For every history of at most [nb] rows in all, [nb] being the burn-in length of the rate: as if the
    parameter had been there from the start. *)
Definition late_binding {N} {C : EstClass N} (rate : c_P C -> N) (same : c_P C -> c_P C -> Prop) : Prop :=
  forall (P P' : c_P C) (cs : list (call C)) nb,
    same P P' -> settings_within (fun Q => same Q P') cs ->
    ewa_burn_n (rate P') = Ok nb -> list_sum (map (fun c => length (call_rows c)) cs) <= nb ->
    set_params (fst (run (new P) cs)) P' = fst (run (new P') (data_calls cs)) /\
    data_outcomes cs (snd (run (new P) cs)) = snd (run (new P') (data_calls cs)).

Section Late.
  Context {N : Num} (L : LinAlg N).
  Lemma emp_update_keys (s s' : dict N) x m : getI "n_samples" s = Ok m -> emp_update s x = Ok s' ->
    exists d mu cv, s' = [("n_dim", VInt d); ("n_samples", VInt (S m)); ("mean", VArr (A1 mu)); ("cov", VArr (A2 cv))]%string.
  Proof.
    unfold emp_update. intros ->. cbn [bind].
    repeat (match goal with |- bind ?m _ = Ok _ -> _ => destruct m; cbn [bind]; [|discriminate] end).
    intros E. injection E as <-. eauto.
  Qed.
  Lemma ewa_init_keys n (r : N) s nb : ewa_burn_n r = Ok nb -> ewa_init n r = Ok s ->
    getI "n_samples" s = Ok 0 /\ getI "n_burn" s = Ok nb.
  Proof. unfold ewa_init. intros ->. cbn [bind]. intros E. injection E as <-. split; reflexivity. Qed.

Theorem C105_huber_cutoff_burn_in : late_binding (C := Huber L) hub_r
    (fun P P' => hub_r P = hub_r P' /\ hub_diff P = hub_diff P').
  Proof.
    intros P P' cs nb HP Hs Hb Hn.
    assert (HA : forall Q, hub_r Q = hub_r P' /\ hub_diff Q = hub_diff P' ->
              alike_burn (C := Huber L) (getI "n_samples") (getI "n_burn") nb Q P').
    { intros Q [E1 E2]. split; [exact E2|]. split; [intros n; cbn; now rewrite E1|]. split.
      - intros n s. cbn. rewrite E1. now apply ewa_init_keys.
      - intros s m x Hm Hnb Hlt. cbn [c_update Huber dict_class]. unfold hub_update. rewrite Hm, Hnb. cbn [bind].
        apply Nat.ltb_lt in Hlt. rewrite Hlt. split; [reflexivity|].
        intros s'. destruct (getN "r" s); cbn [bind]; [|discriminate].
        destruct (emp_update s x) as [out|] eqn:E; cbn [bind]; [|discriminate].
        destruct (emp_update_keys _ _ _ _ Hm E) as (d & mu & cv & ->). intros F. injection F as <-. split; reflexivity. }
    eapply (run_burn (C := Huber L) (getI "n_samples") (getI "n_burn") nb P' cs 0 (new P)).
    - exact (HA _ HP).
    - exact I.
    - exact Hn.
    - eapply Forall_impl; [|exact Hs]. intros [X|X|Q]; cbn; auto.
  Qed.
Theorem C105_schur_lw_blocks_burn_in : late_binding (C := SchurLW L) blk_r
    (fun P P' => blk_r P = blk_r P' /\ blk_diff P = blk_diff P').
  Proof.
    intros P P' cs nb HP Hs Hb Hn.
    assert (HA : forall Q, blk_r Q = blk_r P' /\ blk_diff Q = blk_diff P' ->
              alike_burn (C := SchurLW L) (getI "n_samples") (getI "n_burn") nb Q P').
    { intros Q [E1 E2]. split; [exact E2|]. split; [intros n; cbn; unfold slw_init; now rewrite E1|]. split.
      - intros n s. cbn. unfold slw_init. rewrite E1. unfold ewa_init. rewrite Hb. cbn [bind].
        intros F. injection F as <-. split; reflexivity.
      - intros s m x Hm Hnb Hlt. cbn [c_update SchurLW dict_class]. unfold slw_update. rewrite Hm, Hnb. cbn [bind].
        apply Nat.ltb_lt in Hlt. rewrite Hlt. split; [reflexivity|].
        intros s'. destruct (getN "r" s); cbn [bind]; [|discriminate].
        destruct (getN "pi_cross" s); cbn [bind]; [|discriminate].
        destruct (emp_update s x) as [out|] eqn:E; cbn [bind]; [|discriminate].
        destruct (emp_update_keys _ _ _ _ Hm E) as (d & mu & cv & ->). intros F. injection F as <-. split; reflexivity. }
    eapply (run_burn (C := SchurLW L) (getI "n_samples") (getI "n_burn") nb P' cs 0 (new P)).
    - exact (HA _ HP).
    - exact I.
    - exact Hn.
    - eapply Forall_impl; [|exact Hs]. intros [X|X|Q]; cbn; auto.
  Qed.
End Late.

(** Non-vacuity: parameters that differ in everything but the rate and the differencing, and a history with a
    change of parameters in the middle. *)
Example C105_example : forall (N : Num) (x y : vec N) (r a b : N),
  let P := mkShrP r a "identity" false in let P' := mkShrP r b "constant_correlation" false in
  let cs := [PartialFit Shrunk (In1 x); SetParams Shrunk P; PartialFit Shrunk (In1 y)] in
  (shr_r P = shr_r P' /\ shr_diff P = shr_diff P') /\
  settings_within (C := Shrunk) (fun Q => shr_r Q = shr_r P' /\ shr_diff Q = shr_diff P') cs /\
  data_calls cs = [PartialFit Shrunk (In1 x); PartialFit Shrunk (In1 y)].
Proof. intros. split; [split; reflexivity|]. split; [|reflexivity]. repeat constructor. Qed.

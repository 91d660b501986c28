(** * C92: gamma_ is a snapshot *)
From Coq Require Import Reals ZArith String List Lia Lra Arith Bool.
From Verif Require Import Num Numpy PyVal LinalgModel StateModel BaseModel Estimators RegistryModel Spec ListLemmas BaseProofs
  Shapes StreamProofs Props_Stream RMat LinSpec Fin RealSpec RunFin EwaReal RunAvg EmpFacts Props_Emp ShrinkReal Spectral MatAlg Contracts LinalgReal
  BlockSpec BlockGeom BlockReal BlockRun BlockRun2 Props_Block SchurCondSpec SchurCondReal Props_SchurCond SymSpec Props_Sym Props_SymShift SymCond Props_SymCond GammaModel.
Import ListNotations.
Local Open Scope string_scope.

(** ** Vocabulary *)
Section Spec.
  Context {N : Num} {L : LinAlg N} {G : GClass N L}.
  (** the two classes that have the attribute *)
  Definition has_gamma (G : GClass N L) : Prop := G = GSchurLW L \/ G = GSchurCond L.
  (** calls that change what has been learned, and calls that need the covariance *)
  Definition writes (c : gop G) : bool :=
    match c with GPartialFit _ | GFit _ | GSetParams _ | GSetState _ => true | _ => false end.
  Definition asks (c : gop G) : bool :=
    match c with GCovariance | GCorrelation | GPrecision | GMahalanobis _ | GScore _ => true | _ => false end.
  (** its argument, if it has one, is accepted *)
  Definition well_posed (c : gop G) : Prop :=
    match c with GMahalanobis X | GScore X => exists rows, as_rows X = Ok rows | _ => True end.
  (** what a read returns according to the value model (BaseModel.v) *)
  Definition answer (i : inst (gc_class G)) (c : gop G) : option (gout) :=
    match c with
    | GCovariance => Some (OMat (covariance_ i)) | GCorrelation => Some (OMat (correlation_ i)) | GPrecision => Some (OMat (precision_ L i))
    | GMahalanobis X => Some (OVec (mahalanobis L i X)) | GScore X => Some (ONum (score L i X))
    | GLocation => Some (OVec (location_ i)) | GNSamples => Some (ONat (n_samples_ i)) | GGetState => Some (OState (get_state i))
    | _ => None
    end.
End Spec.

Section Proofs.
  Context {N : Num} {L : LinAlg N} {G : GClass N L} (HG : has_gamma G).
  Lemma g_hook P s : snd (gc_hook G P s) = c_cov (gc_class G) P s.
  Proof. destruct HG as [-> | ->]; reflexivity. Qed.
  Lemma g_noprec : c_prec (gc_class G) = None.
  Proof. destruct HG as [-> | ->]; reflexivity. Qed.
  Lemma g_cov_out (o : gobj G) : snd (g_covariance o) = covariance_ (g_inst o) /\ g_inst (fst (g_covariance o)) = g_inst o.
  Proof.
    unfold g_covariance, covariance_. destruct (fitted_state (g_inst o)) as [s|e]; cbn [bind]; [|split; reflexivity].
    pose proof (g_hook (i_params (g_inst o)) s) as H. destruct (gc_hook G (i_params (g_inst o)) s) as [g r]. cbn [snd] in H. subst r. split; reflexivity.
  Qed.
  Lemma g_corr_out (o : gobj G) : snd (g_correlation o) = correlation_ (g_inst o) /\ fst (g_correlation o) = fst (g_covariance o).
  Proof. unfold g_correlation, correlation_. destruct (g_cov_out o) as [A _]. destruct (g_covariance o) as [o1 r]. cbn [snd fst] in *. now rewrite A. Qed.
  Lemma g_prec_out (o : gobj G) : snd (g_precision o) = precision_ L (g_inst o) /\ fst (g_precision o) = fst (g_covariance o).
  Proof.
    unfold g_precision, precision_. rewrite g_noprec. destruct (g_cov_out o) as [A _]. destruct (g_covariance o) as [o1 r]. cbn [snd fst] in *. now rewrite A.
  Qed.
  Lemma g_maha_out (o : gobj G) X : snd (g_mahalanobis o X) = mahalanobis L (g_inst o) X /\
    fst (g_mahalanobis o X) = match as_rows X with Ok _ => fst (g_covariance o) | Err _ => o end.
  Proof.
    unfold g_mahalanobis, mahalanobis. destruct (as_rows X) as [rows|e]; cbn [bind]; [|split; reflexivity].
    destruct (g_prec_out o) as [A B]. destruct (g_cov_out o) as [_ D]. rewrite <- B in D. destruct (g_precision o) as [o1 r]. cbn [snd fst] in *. rewrite <- A, D. now split.
  Qed.
  Lemma g_cov_twice (o : gobj G) : fst (g_covariance (fst (g_covariance o))) = fst (g_covariance o).
  Proof.
    unfold g_covariance at 2 3. destruct (fitted_state (g_inst o)) as [s|e] eqn:F.
    - destruct (gc_hook G (i_params (g_inst o)) s) as [g r] eqn:H. cbn [fst]. unfold g_covariance. cbn [g_inst]. rewrite F, H. cbn [fst gamma_]. now destruct g.
    - cbn [fst]. unfold g_covariance. now rewrite F.
  Qed.
  Lemma g_score_out (o : gobj G) X : snd (g_score o X) = score L (g_inst o) X /\
    fst (g_score o X) = match as_rows X with Ok _ => fst (g_covariance o) | Err _ => o end.
  Proof.
    unfold g_score, score. destruct (as_rows X) as [rows|e]; cbn [bind]; [|split; reflexivity].
    destruct (g_prec_out o) as [A B]. destruct (g_cov_out o) as [_ D]. rewrite <- B in D. pose proof (g_cov_twice o) as T. rewrite <- B in T.
    destruct (g_precision o) as [o1 r] eqn:E1. cbn [snd fst] in *. rewrite <- A. clear A.
    destruct r as [prec|e]; cbn [bind]; [|split; [reflexivity|exact B]].
    destruct (la_slogdet L prec) as [[sg ld]|e]; cbn [bind]; [|split; [reflexivity|exact B]].
    destruct (g_maha_out o1 (In2 rows)) as [A2 B2]. rewrite D in A2. destruct (g_mahalanobis o1 (In2 rows)) as [o2 q]. cbn [snd fst] in *. subst q. split; [reflexivity|].
    rewrite B2. destruct (as_rows (In2 rows)); [rewrite T; exact B|exact B].
  Qed.
  Lemma g_step_asks (o : gobj G) c : asks c = true -> well_posed c -> fst (g_step o c) = fst (g_covariance o).
  Proof.
    intros HA HW. destruct c; try discriminate; cbn [g_step].
    - now destruct (g_covariance o).
    - rewrite <- (proj2 (g_corr_out o)). now destruct (g_correlation o).
    - rewrite <- (proj2 (g_prec_out o)). now destruct (g_precision o).
    - destruct HW as (rows & E). pose proof (proj2 (g_maha_out o X)) as Q. rewrite E in Q. rewrite <- Q. now destruct (g_mahalanobis o X).
    - destruct HW as (rows & E). pose proof (proj2 (g_score_out o X)) as Q. rewrite E in Q. rewrite <- Q. now destruct (g_score o X).
  Qed.
  Lemma g_cov_inst (o : gobj G) : g_inst (fst (g_covariance o)) = g_inst o.
  Proof. apply g_cov_out. Qed.
  Lemma g_step_reads (o : gobj G) c : writes c = false -> answer (g_inst o) c = Some (snd (g_step o c)) /\ g_inst (fst (g_step o c)) = g_inst o.
  Proof.
    intros HW. destruct c; try discriminate; cbn [g_step answer].
    - destruct (g_cov_out o) as [A B]. destruct (g_covariance o) as [o1 r]. cbn [fst snd] in *. subst r. auto.
    - destruct (g_corr_out o) as [A B]. pose proof (g_cov_inst o) as D. rewrite <- B in D. destruct (g_correlation o) as [o1 r]. cbn [fst snd] in *. subst r. auto.
    - destruct (g_prec_out o) as [A B]. pose proof (g_cov_inst o) as D. rewrite <- B in D. destruct (g_precision o) as [o1 r]. cbn [fst snd] in *. subst r. auto.
    - destruct (g_maha_out o X) as [A B]. pose proof (g_cov_inst o) as D.
      assert (D2 : g_inst (fst (g_mahalanobis o X)) = g_inst o) by (rewrite B; destruct (as_rows X); auto).
      destruct (g_mahalanobis o X) as [o1 r]. cbn [fst snd] in *. subst r. auto.
    - destruct (g_score_out o X) as [A B]. pose proof (g_cov_inst o) as D.
      assert (D2 : g_inst (fst (g_score o X)) = g_inst o) by (rewrite B; destruct (as_rows X); auto).
      destruct (g_score o X) as [o1 r]. cbn [fst snd] in *. subst r. auto.
    - auto.
    - auto.
    - auto.
  Qed.
  Lemma g_step_quiet (o : gobj G) c : asks c = false -> gamma_ (fst (g_step o c)) = gamma_ o.
  Proof.
    intros HA. destruct c; try discriminate; cbn [g_step]; auto.
    - now destruct (partial_fit (g_inst o) X).
    - now destruct (fit (g_inst o) X).
    - now destruct (set_state (g_inst o) j).
  Qed.
  Lemma g_step_same (o o' : gobj G) c : g_inst o = g_inst o' -> snd (g_step o c) = snd (g_step o' c) /\ g_inst (fst (g_step o c)) = g_inst (fst (g_step o' c)).
  Proof.
    intros E. destruct (writes c) eqn:W.
    - destruct c; try discriminate; cbn [g_step]; rewrite E.
      + now destruct (partial_fit (g_inst o') X).
      + now destruct (fit (g_inst o') X).
      + now split.
      + now destruct (set_state (g_inst o') j).
    - destruct (g_step_reads o c W) as [A1 B1]. destruct (g_step_reads o' c W) as [A2 B2]. rewrite E in A1. split; congruence.
  Qed.
  Lemma g_run_cons (o : gobj G) c cs : g_run o (c :: cs) = (fst (g_run (fst (g_step o c)) cs), snd (g_step o c) :: snd (g_run (fst (g_step o c)) cs)).
  Proof. cbn [g_run]. destruct (g_step o c) as [o1 r]. cbn [fst snd]. now destruct (g_run o1 cs). Qed.
  Lemma g_run_app (o : gobj G) a b : fst (g_run o (a ++ b)) = fst (g_run (fst (g_run o a)) b).
  Proof. revert o. induction a as [|c a IH]; intros o; [reflexivity|]. cbn [app]. rewrite !g_run_cons. cbn [fst]. apply IH. Qed.
  Lemma g_run_quiet cs : forall o : gobj G, forallb (fun c => negb (asks c)) cs = true -> gamma_ (fst (g_run o cs)) = gamma_ o.
  Proof.
    induction cs as [|c cs IH]; intros o H; [reflexivity|]. cbn [forallb] in H. apply andb_prop in H. destruct H as [H1 H2].
    rewrite g_run_cons. cbn [fst]. rewrite IH by auto. apply g_step_quiet. now destruct (asks c).
  Qed.
End Proofs.

Lemma g_two_fits {N} {L : LinAlg N} {G : GClass N L} P a b (o : inst (gc_class G)) : partial_fit (new P) (In2 (a ++ b)%list) = (o, Ok tt) ->
  g_inst (fst (g_run (g_new (G := G) P) [GPartialFit (In2 a); GPartialFit (In2 b)])) = o.
Proof.
  intros E. rewrite C01_batch_and_stream_agree in E. rewrite !g_run_cons. cbn [g_run fst g_step g_new g_inst].
  destruct (partial_fit (new P) (In2 a)) as [o1 [u|e]]; [|discriminate]. cbn [fst g_inst].
  destruct (partial_fit o1 (In2 b)) as [o2 q]. cbn [fst g_inst]. now injection E.
Qed.
(** Reading never disturbs: whatever mixture of calls, every read returns what the value model says about the data
    absorbed so far, the attribute has no influence on anything, and what has been learned at the end is what the
    program with all reads deleted would have learned. *)
Theorem C92_reads_do_not_disturb N (L : LinAlg N) (G : GClass N L) : has_gamma G -> forall (o : gobj G) cs,
  (forall cs1 c cs2, cs = (cs1 ++ c :: cs2)%list -> writes c = false ->
     nth_error (snd (g_run o cs)) (length cs1) = answer (g_inst (fst (g_run o cs1))) c) /\
  g_inst (fst (g_run o cs)) = g_inst (fst (g_run o (filter writes cs))) /\
  (forall o' : gobj G, g_inst o' = g_inst o -> snd (g_run o' cs) = snd (g_run o cs)).
Proof.
  intros HG o cs. split; [|split].
  - intros cs1 c cs2 -> HW. revert o. induction cs1 as [|d cs1 IH]; intros o.
    + cbn [app]. rewrite g_run_cons. cbn [snd length nth_error g_run fst]. symmetry. now apply (g_step_reads HG).
    + cbn [app]. rewrite !g_run_cons. cbn [snd length nth_error fst]. apply IH.
  - assert (K : forall cs (o o' : gobj G), g_inst o = g_inst o' -> g_inst (fst (g_run o cs)) = g_inst (fst (g_run o' (filter writes cs)))).
    { clear -HG. intros cs. induction cs as [|c cs IH]; intros o o' E; [exact E|]. cbn [filter]. rewrite g_run_cons. cbn [fst].
      destruct (writes c) eqn:W.
      - rewrite g_run_cons. cbn [fst]. apply IH. now apply (g_step_same HG).
      - apply IH. rewrite <- E. now apply (g_step_reads HG). }
    now apply K.
  - revert o. induction cs as [|c cs IH]; intros o o' E; [reflexivity|]. rewrite !g_run_cons. cbn [snd].
    destruct (g_step_same HG o' o c E) as [A B]. rewrite A. f_equal. now apply IH.
Qed.
(** Fitting does not set the attribute (the class documentation of SchurLedoitWolfCovariance says it does): it stays None
    until something that needs the covariance is read. *)
Theorem C92_none_until_read N (L : LinAlg N) (G : GClass N L) : forall P (cs : list (gop G)),
  (forall c, In c cs -> asks c = false) -> gamma_ (fst (g_run (g_new P) cs)) = None.
Proof.
  intros P cs H. rewrite g_run_quiet; [reflexivity|]. apply forallb_forall. intros c Hc. now rewrite H.
Qed.
(** It then is the damping that belongs to the data and parameters at the most recent such read: later fitting, even a
    fit() from scratch or a set_state, leaves it alone. *)
Theorem C92_last_read_ledoit_wolf N (L : LinAlg N) (o : gobj (GSchurLW L)) cs1 c cs2 g :
  asks c = true -> well_posed c -> (forall d, In d cs2 -> asks d = false) ->
  slw_gamma_ L (g_inst (fst (g_run o cs1))) = Ok g ->
  gamma_ (fst (g_run o (cs1 ++ c :: cs2)%list)) = Some g.
Proof.
  intros HA HW H2 HS. assert (HG : has_gamma (GSchurLW L)) by now left.
  rewrite g_run_app, g_run_cons. cbn [fst]. rewrite g_run_quiet by (apply forallb_forall; intros d Hd; now rewrite H2).
  rewrite (g_step_asks HG) by auto. set (o1 := fst (g_run o cs1)) in *. unfold slw_gamma_ in HS. unfold g_covariance.
  change (gc_class (GSchurLW L)) with (SchurLW L) in *.
  destruct (fitted_state (C := SchurLW L) (g_inst o1)) as [s|e]; [|discriminate]. cbn [bind] in HS. cbn [gc_hook GSchurLW]. rewrite HS. reflexivity.
Qed.
Theorem C92_last_read_conditional N (L : LinAlg N) (o : gobj (GSchurCond L)) cs1 c cs2 g :
  asks c = true -> well_posed c -> (forall d, In d cs2 -> asks d = false) ->
  sc_gamma_ L (g_inst (fst (g_run o cs1))) = Ok g ->
  gamma_ (fst (g_run o (cs1 ++ c :: cs2)%list)) = Some g.
Proof.
  intros HA HW H2 HS. assert (HG : has_gamma (GSchurCond L)) by now right.
  rewrite g_run_app, g_run_cons. cbn [fst]. rewrite g_run_quiet by (apply forallb_forall; intros d Hd; now rewrite H2).
  rewrite (g_step_asks HG) by auto. set (o1 := fst (g_run o cs1)) in *. unfold sc_gamma_ in HS. unfold g_covariance.
  change (gc_class (GSchurCond L)) with (SchurCond L) in *.
  destruct (fitted_state (C := SchurCond L) (g_inst o1)) as [s|e]; [|discriminate]. cbn [bind] in HS. cbn [gc_hook GSchurCond]. rewrite HS. reflexivity.
Qed.
(** A pickled copy and a clone start with None; the copy is otherwise the same estimator (C06). *)
Theorem C92_copies_forget N (L : LinAlg N) : la_shapes L -> forall (G : GClass N L), has_gamma G ->
  forall P p (cs : list (call (gc_class G))) g, (1 <= p)%nat -> history_of_length p cs ->
  let o := mkG (G := G) (fst (run (new P) cs)) g in
  gamma_ (g_clone o) = None /\ exists o', g_pickle o = Ok o' /\ gamma_ o' = None /\ indistinguishable L (g_inst o) (g_inst o').
Proof.
  intros HL G HG P p cs g Hp Hh o. split; [reflexivity|]. unfold o, g_pickle. cbn [g_inst]. clear o g.
  destruct HG as [-> | ->].
  - set (k := mkReg (SchurLW L) blk_with).
    assert (Hk : In k (registry L 0)) by (unfold registry; do 10 right; left; reflexivity).
    destruct (C06_pickle_and_resume N L HL 0%nat k Hk P p cs Hp Hh) as (d & i & E1 & E2 & _ & E3).
    exists (mkG (G := GSchurLW L) i None). split; [|split; [reflexivity|exact E3]].
    change (getstate (C := SchurLW L) (fst (run (new P) cs)) = Ok d) in E1.
    change (setstate (C := SchurLW L) d = Ok i) in E2.
    change ((d0 <- getstate (C := SchurLW L) (fst (run (new P) cs)) ;; i0 <- setstate (C := SchurLW L) d0 ;; Ok (mkG (G := GSchurLW L) i0 None)) = Ok (mkG (G := GSchurLW L) i None)).
    rewrite E1. cbn [bind]. now rewrite E2.
  - set (k := mkReg (SchurCond L) blk_with).
    assert (Hk : In k (registry L 0)) by (unfold registry; do 9 right; left; reflexivity).
    destruct (C06_pickle_and_resume N L HL 0%nat k Hk P p cs Hp Hh) as (d & i & E1 & E2 & _ & E3).
    exists (mkG (G := GSchurCond L) i None). split; [|split; [reflexivity|exact E3]].
    change (getstate (C := SchurCond L) (fst (run (new P) cs)) = Ok d) in E1.
    change (setstate (C := SchurCond L) d = Ok i) in E2.
    change ((d0 <- getstate (C := SchurCond L) (fst (run (new P) cs)) ;; i0 <- setstate (C := SchurCond L) d0 ;; Ok (mkG (G := GSchurCond L) i0 None)) = Ok (mkG (G := GSchurCond L) i None)).
    rewrite E1. cbn [bind]. now rewrite E2.
Qed.
(** Asking an estimator that has seen nothing raises NotFittedError and leaves the attribute alone. *)
Theorem C92_unfitted N (L : LinAlg N) (G : GClass N L) : has_gamma G -> forall (o : gobj G) c,
  i_state (g_inst o) = None -> asks c = true -> well_posed c ->
  fst (g_step o c) = o /\ match snd (g_step o c) with OMat r => r = Err NotFittedError | OVec r => r = Err NotFittedError | ONum r => r = Err NotFittedError | _ => False end.
Proof.
  intros HG o c H HA HW.
  assert (E : g_covariance o = (o, Err NotFittedError)) by (unfold g_covariance, fitted_state; now rewrite H).
  assert (Ep : g_precision o = (o, Err NotFittedError)) by (unfold g_precision; now rewrite E).
  destruct c; try discriminate; cbn [g_step well_posed] in *.
  - rewrite E. split; reflexivity.
  - unfold g_correlation. rewrite E. split; reflexivity.
  - rewrite Ep. split; reflexivity.
  - destruct HW as (rows & W). unfold g_mahalanobis. rewrite W, Ep. split; reflexivity.
  - destruct HW as (rows & W). unfold g_score. rewrite W, Ep. split; reflexivity.
Qed.

(** ** The value, on streams of finite numbers *)
Local Open Scope R_scope.
Theorem C92_value_ledoit_wolf L p r n_blocks diff rows xs later :
  lawful L -> (1 <= p)%nat -> r <> 0 -> (1 <= n_blocks)%Z -> observes p diff rows xs -> xs <> [] ->
  (forall d, In d later -> asks d = false) ->
  let g := coupling_reliability p (blocks n_blocks p) r xs in
  gamma_ (fst (g_run (g_new (G := GSchurLW L) (BLK r n_blocks diff)) (GPartialFit (In2 rows) :: GCovariance :: later))) = Some (Fin g) /\ 0 <= g <= 1.
Proof.
  intros HL Hp Hr Hn Ho Hx Hl g. destruct (C46_schur_ledoit_wolf L p r n_blocks diff rows xs HL Hp Hr Hn Ho Hx) as (o & B & E1 & _ & E3 & E4 & _).
  split; [|exact E4]. fold g in E3.
  apply (C92_last_read_ledoit_wolf NumX L _ [GPartialFit (In2 rows)] GCovariance later); [reflexivity|exact I|exact Hl|].
  rewrite g_run_cons. cbn [g_run fst g_step g_new g_inst gc_class GSchurLW]. unfold fitted_on in E1. rewrite E1. exact E3.
Qed.
Theorem C92_value_conditional L p r n_blocks diff rows xs later :
  lawful L -> (1 <= p)%nat -> 0 < r <= 1 -> observes p diff rows xs -> xs <> [] ->
  (forall d, In d later -> asks d = false) ->
  let g := gaussian_reliability p (blocks n_blocks p) (effective_n r (length xs)) (corr_of (ewa_cov r (burn_len r) xs)) in
  gamma_ (fst (g_run (g_new (G := GSchurCond L) (BLK r n_blocks diff)) (GPartialFit (In2 rows) :: GCovariance :: later))) = Some (Fin g) /\ 0 <= g <= 1.
Proof.
  intros HL Hp Hr Ho Hx Hl g. destruct (C47_schur_conditional L p r n_blocks diff rows xs HL Hp Hr Ho Hx) as (o & E1 & _ & E3 & E4 & _).
  split; [|exact E4]. fold g in E3.
  apply (C92_last_read_conditional NumX L _ [GPartialFit (In2 rows)] GCovariance later); [reflexivity|exact I|exact Hl|].
  rewrite g_run_cons. cbn [g_run fst g_step g_new g_inst gc_class GSchurCond]. unfold fitted_on in E1. rewrite E1. exact E3.
Qed.

(** So the value can be stale: after reading at the first row of this stream it is 0, it still is after the other rows, and
    the next read changes it to something positive. *)
Theorem C92_stale L r : lawful L -> 0 < r <= 2 / 5 ->
  exists first rest g, (0 < g) /\
    let start := g_new (G := GSchurCond L) (BLK r 2 false) in
    let before := [GPartialFit (In2 first); GCovariance; GPartialFit (In2 rest)] in
    gamma_ (fst (g_run start before)) = Some (Fin 0) /\
    gamma_ (fst (g_run start (before ++ [GCovariance])%list)) = Some (Fin g).
Proof.
  intros HL Hr. exists (map (fv 2) (firstn 1 sc_ex)), (map (fv 2) (skipn 1 sc_ex)).
  exists (gaussian_reliability 2 2 (effective_n r 4) (corr_of (ewa_cov r (burn_len r) sc_ex))).
  assert (En : effective_n r 4 = 4).
  { unfold effective_n. replace (INR 4) with 4 by (simpl; lra). rewrite Rmin_left.
    - apply Rmax_right. lra.
    - apply Rmult_le_reg_r with r; [lra|]. unfold Rdiv. rewrite Rmult_assoc, Rinv_l by lra. lra. }
  split; [rewrite En; apply sc_ex_gamma; intros; now apply sc_ex_cov|]. intros start before. unfold before, start. split.
  - pose proof (C92_value_conditional L 2 r 2 false (map (fv 2) (firstn 1 sc_ex)) (firstn 1 sc_ex) [GPartialFit (In2 (map (fv 2) (skipn 1 sc_ex)))]
      HL ltac:(lia) ltac:(lra) (observes_seen 2 false _) ltac:(discriminate)) as K.
    destruct K as [K _]; [intros d [<-|[]]; reflexivity|]. etransitivity; [exact K|]. apply (f_equal (fun z => Some (Fin z))).
    change (blocks 2 2) with 2%nat. pose proof (burn_len_bounds r) as Hb.
    assert (Z : forall i j, corr_of (ewa_cov r (burn_len r) (firstn 1 sc_ex)) i j = 0).
    { intros i j. unfold corr_of. replace (ewa_cov r (burn_len r) (firstn 1 sc_ex) i j) with 0; [unfold Rdiv; ring|].
      unfold ewa_cov, burn, after. rewrite firstn_all2, skipn_all2 by (simpl; lia). rewrite ewc_nil.
      unfold pcov_of, mean_of, sc_ex. cbn [map lsum length firstn]. simpl. field. }
    unfold gaussian_reliability, cross_sum. cbn [rsum Nat.leb]. change (block_of 2 2 0) with 0%nat. change (block_of 2 2 1) with 1%nat. cbn [Nat.eqb]. rewrite !Z.
    destruct (Rlt_dec _ _) as [D|D]; [|reflexivity]. exfalso. lra.
  - destruct (C47_schur_conditional L 2 r 2 false _ _ HL ltac:(lia) ltac:(lra) (observes_seen 2 false sc_ex) ltac:(discriminate)) as (o & E1 & _ & E3 & _).
    cbn [seen] in *. change (blocks 2 2) with 2%nat in E3. change (length sc_ex) with 4%nat in E3.
    apply (C92_last_read_conditional NumX L _ _ GCovariance []); [reflexivity|exact I|intros d []|].
    etransitivity; [|exact E3]. apply (f_equal (sc_gamma_ L)).
    assert (HG : has_gamma (GSchurCond L)) by now right.
    destruct (C92_reads_do_not_disturb NumX L (GSchurCond L) HG (g_new (G := GSchurCond L) (BLK r 2 false)) [GPartialFit (In2 (map (fv 2) (firstn 1 sc_ex))); GCovariance; GPartialFit (In2 (map (fv 2) (skipn 1 sc_ex)))]) as (_ & K & _).
    etransitivity; [exact K|]. cbn [filter writes].
  unfold fitted_on in E1. rewrite <- (firstn_skipn 1 sc_ex), map_app in E1. exact (g_two_fits (G := GSchurCond L) _ _ _ o E1).
Qed.

(** * C94: block and factor counts outside their range

    BlockCovariance and SchurConditionalCovariance clamp n_blocks to 1..p, FactorCovariance clamps k to at most p; SchurCovariance and
    SchurLedoitWolfCovariance clamp n_blocks from above only, and find out late. *)
From Coq Require Import ZArith Bool String List Lia Arith.
From Verif Require Import Num NumFloat Numpy PyVal LinalgModel StateModel BaseModel Estimators RegistryModel Spec ListLemmas BaseProofs Shapes ClassShapes BlockShapes StreamProofs RegistryProofs Props_Stream Props_Size Props_OneVar.
Import ListNotations.
Local Open Scope string_scope.

(** ** Specification *)
(** With rows of length [p], an estimator constructed with [P] and one constructed with [P'] cannot be told apart: after every history of
    fit and partial_fit calls (including calls that raise) the same outcomes, the same fitted attributes, the same checkpoint. *)
Definition interchangeable {N} (L : LinAlg N) {C : EstClass N} (p : nat) (P P' : c_P C) : Prop :=
  forall cs : list (call C), history_of_length p cs -> only_fits cs ->
    snd (run (new P) cs) = snd (run (new P') cs) /\ same_fitted L (fst (run (new P) cs)) (fst (run (new P') cs)) /\
    get_state (fst (run (new P) cs)) = get_state (fst (run (new P') cs)).

(** ** Two parameter sets the class does not distinguish *)
Section Same.
  Context {N : Num} (L : LinAlg N) {C : EstClass N} (p : nat) (P P' : c_P C) (Inv : c_St C -> Prop).
  Context (Hi : forall s, c_init C P p = Ok s -> Inv s) (Hu : forall s x s', Inv s -> length x = p -> c_update C P s x = Ok s' -> Inv s').
  Context (Ed : c_diff C P = c_diff C P') (Ei : c_init C P p = c_init C P' p)
    (Eu : forall s x, Inv s -> length x = p -> c_update C P s x = c_update C P' s x)
    (Em : forall s, Inv s -> c_mean C P s = c_mean C P' s) (Ec : forall s, Inv s -> c_cov C P s = c_cov C P' s)
    (Ep : forall f s, Inv s -> c_prec C = Some f -> f P s = f P' s).
  Definition twin (o o' : inst C) : Prop := kept p P Inv o /\ o' = mkInst P' (i_state o) (i_nfeat o) (i_prev o).
  Lemma absorb_twin o o' x : twin o o' -> length x = p -> twin (fst (absorb o x)) (fst (absorb o' x)) /\ snd (absorb o x) = snd (absorb o' x).
  Proof.
    intros [K ->] Hx. pose proof (absorb_kept p P Inv Hi Hu o x K Hx) as K'. unfold twin. cut (fst (absorb (mkInst P' (i_state o) (i_nfeat o) (i_prev o)) x) =
      mkInst P' (i_state (fst (absorb o x))) (i_nfeat (fst (absorb o x))) (i_prev (fst (absorb o x))) /\ snd (absorb o x) = snd (absorb (mkInst P' (i_state o) (i_nfeat o) (i_prev o)) x)); [tauto|]. clear K'.
    destruct o as [P0 st nf pv]. destruct K as (E & K & B). cbn in E. subst P0. unfold absorb. cbn [i_state i_params i_nfeat i_prev] in *. destruct st as [s|].
    - rewrite <- (Eu s x (K s eq_refl) Hx). destruct (c_update C P s x); split; reflexivity.
    - rewrite Hx, <- Ei. destruct (c_init C P p) as [s0|] eqn:EI; [|split; reflexivity].
      rewrite <- (Eu s0 x (Hi s0 eq_refl) Hx). destruct (c_update C P s0 x); split; reflexivity.
  Qed.
  Lemma fit_row_twin o o' x : twin o o' -> length x = p -> twin (fst (fit_row o x)) (fst (fit_row o' x)) /\ snd (fit_row o x) = snd (fit_row o' x).
  Proof.
    intros T Hx. pose proof T as [K ->]. pose proof (fit_row_kept p P Inv Hi Hu o x K Hx) as K'. pose proof K as (E & K1 & K2).
    unfold fit_row in *. cbn [i_params i_prev i_state i_nfeat]. rewrite E, <- Ed in *. destruct (c_diff C P); [|now apply absorb_twin].
    destruct (i_prev o) as [pv|] eqn:EP; [|split; [split; [exact K'|reflexivity]|reflexivity]].
    destruct (vsub x pv) as [d|] eqn:ED; [|split; [split; [exact K|cbn [fst]; now rewrite <- EP]|reflexivity]].
    apply absorb_twin; [|pose proof (vsub_sh (fun _ => True) p x pv Hx (K2 pv eq_refl)) as Hd; now rewrite ED in Hd].
    split; [split; [reflexivity|split; [exact K1|cbn [i_prev]; now intros x' [= <-]]]|reflexivity].
  Qed.
  Lemma fit_rows_twin rows : forall o o', twin o o' -> rows_of_length p rows -> twin (fst (fit_rows o rows)) (fst (fit_rows o' rows)) /\ snd (fit_rows o rows) = snd (fit_rows o' rows).
  Proof.
    induction rows as [|x rows IH]; intros o o' T Hr; [split; [exact T|reflexivity]|]. pose proof (Forall_inv Hr) as Hx. pose proof (Forall_inv_tail Hr) as Hr'. cbv beta in Hx.
    cbn [fit_rows]. destruct (fit_row_twin o o' x T Hx) as [T' E']. destruct (fit_row o x) as [o1 r1], (fit_row o' x) as [o1' r1']. cbn [fst snd] in *. subst r1'.
    destruct r1; [now apply IH|split; [exact T'|reflexivity]].
  Qed.
  Lemma run_twin cs : forall o o', twin o o' -> history_of_length p cs -> only_fits cs -> twin (fst (run o cs)) (fst (run o' cs)) /\ snd (run o cs) = snd (run o' cs).
  Proof.
    induction cs as [|c cs IH]; intros o o' T Hh Hf; [split; [exact T|reflexivity]|]. inversion Hh as [|? ? Hc Hh']; subst. inversion Hf as [|? ? Fc Hf']; subst.
    assert (K : twin (fst (do_call o c)) (fst (do_call o' c)) /\ snd (do_call o c) = snd (do_call o' c)).
    { destruct c as [X|X|P0]; [| |contradiction].
      - cbn [do_call]. unfold partial_fit. cbn [call_rows] in Hc. destruct (as_rows X) as [rows|]; [now apply fit_rows_twin|split; [exact T|reflexivity]].
      - cbn [do_call]. unfold fit. destruct T as [(E & K1 & K2) ->]. cbn [i_params i_nfeat].
        assert (T0 : twin (mkInst (i_params o) None (i_nfeat o) None) (mkInst P' None (i_nfeat o) None)) by (split; [split; [exact E|split; discriminate]|reflexivity]).
        destruct X; try (split; [exact T0|reflexivity]). unfold partial_fit. cbn [as_rows call_rows] in *. now apply fit_rows_twin. }
    cbn [run]. destruct K as [T' E']. destruct (do_call o c) as [o1 r1], (do_call o' c) as [o1' r1']. cbn [fst snd] in *. subst r1'.
    destruct (IH o1 o1' T' Hh' Hf') as [T2 E2]. destruct (run o1 cs), (run o1' cs). cbn [fst snd] in *. split; [exact T2|congruence].
  Qed.
  Lemma twin_fitted o o' : twin o o' -> same_fitted L o o' /\ get_state o = get_state o'.
  Proof.
    intros [(E & K1 & K2) ->]. destruct o as [P0 st nf pv]. cbn [i_params i_state i_nfeat i_prev] in *. subst P0.
    set (o := mkInst P st nf pv). set (o' := mkInst P' st nf pv).
    assert (F : fitted_state o = fitted_state o') by reflexivity.
    assert (FI : forall s, fitted_state o = Ok s -> Inv s).
    { intros s. unfold fitted_state, o. cbn [i_state]. destruct st as [s0|]; [|discriminate]. destruct (get_or 0 (c_nsamples C s0)); cbn [bind]; [|discriminate]. destruct (Nat.ltb _ _); [discriminate|]. intros [= <-]. now apply K1. }
    assert (A1 : location_ o = location_ o').
    { unfold location_. rewrite <- F. destruct (fitted_state o) as [s|]; [|reflexivity]. exact (Em s (FI s eq_refl)). }
    assert (A2 : covariance_ o = covariance_ o').
    { unfold covariance_. rewrite <- F. destruct (fitted_state o) as [s|]; [|reflexivity]. cbn [bind i_params o o']. now rewrite (Ec s (FI s eq_refl)). }
    assert (A3 : precision_ L o = precision_ L o').
    { unfold precision_. rewrite A2. destruct (c_prec C) as [f|] eqn:EP; [|reflexivity]. rewrite <- F. destruct (fitted_state o) as [s|]; [|reflexivity]. exact (Ep f s (FI s eq_refl) eq_refl). }
    assert (A4 : forall X, mahalanobis L o X = mahalanobis L o' X) by (intros X; unfold mahalanobis; now rewrite A3, A1).
    split; [|reflexivity]. split; [reflexivity|]. split; [exact A1|]. split; [exact A2|]. split; [unfold correlation_; now rewrite A2|]. split; [exact A3|]. split; [exact A4|].
    intros X. unfold score. rewrite A3. destruct (as_rows X); [|reflexivity]. cbn [bind]. destruct (precision_ L o'); [|reflexivity]. cbn [bind]. destruct (la_slogdet L _) as [[]|]; [|reflexivity]. cbn [bind]. now rewrite A4.
  Qed.
  Lemma twins_interchangeable : interchangeable L p P P'.
  Proof.
    intros cs Hh Hf. destruct (run_twin cs (new P) (new P')) as [T E]; auto.
    - split; [apply new_kept|reflexivity].
    - destruct (twin_fitted _ _ T) as [A B]. auto.
  Qed.
End Same.
Lemma by_interchangeable {N} (L : LinAlg N) {C : EstClass N} wf R (HB : behaved_by C wf R) p (P P' : c_P C) : 1 <= p ->
  c_diff C P = c_diff C P' -> c_init C P p = c_init C P' p -> (forall s x, wf p s -> length x = p -> c_update C P s x = c_update C P' s x) ->
  (forall s, wf p s -> c_mean C P s = c_mean C P' s) -> (forall s, wf p s -> c_cov C P s = c_cov C P' s) ->
  (forall f s, wf p s -> c_prec C = Some f -> f P s = f P' s) -> interchangeable L p P P'.
Proof.
  intros Hp H1 H2 H3 H4 H5 H6. apply (twins_interchangeable L p P P' (wf p)); auto.
  - intros s Es. exact (proj1 (bh_init _ _ _ HB P p s Hp Es)).
  - intros s x s' W Hx Es. exact (proj1 (bh_update _ _ _ HB P p s x s' Hp W Hx Es)).
Qed.
Lemma slices_clamp k k' p : Z.min (Z.max 1 k) (Z.of_nat p) = Z.min (Z.max 1 k') (Z.of_nat p) -> slices k p = slices k' p.
Proof. intros E. unfold slices. now rewrite E. Qed.

(** ** C94 *)
Lemma block_same {N} (L : LinAlg N) r d k k' p : 1 <= p -> Z.min (Z.max 1 k) (Z.of_nat p) = Z.min (Z.max 1 k') (Z.of_nat p) ->
  interchangeable L (C := Block L) p (mkBlkP r k d) (mkBlkP r k' d).
Proof.
  intros Hp E. refine (by_interchangeable L (C := Block L) blk_wf blk_eq (Block_behaved_by L) p _ _ Hp _ _ _ _ _ _); try reflexivity.
  - cbn [c_init Block]. unfold blk_init. cbn [blk_n_blocks blk_r]. now rewrite (slices_clamp k k' p E).
  - intros f s _ [= <-]. reflexivity.
Qed.
Lemma sc_same {N} (L : LinAlg N) (HL : la_shapes L) r d k k' p : 1 <= p -> Z.min (Z.max 1 k) (Z.of_nat p) = Z.min (Z.max 1 k') (Z.of_nat p) ->
  interchangeable L (C := SchurCond L) p (mkBlkP r k d) (mkBlkP r k' d).
Proof.
  intros Hp E.
  refine (by_interchangeable L (C := SchurCond L) _ _ (ewa_like_by "SchurConditionalCovariance" BlkP blk_diff blk_r (sc_cov L) (fun Pm => sc_cov_sh L HL Pm)) p _ _ Hp _ _ _ _ _ _); try reflexivity.
  - intros s W. unfold sch_ewa, sch_emp in W. cbn [app] in W. open_conf W. cbn [c_cov SchurCond dict_class]. unfold sc_cov. red_get. rewrite (nrows_sh p p _ Hv0). cbn [blk_n_blocks].
    rewrite (slices_clamp k k' p E). destruct (slices k' p) as [sl|]; [|reflexivity]. cbn [bind].
    pose proof (cov_to_corrcoef_sh (fun _ => True) p _ Hv0 Hp) as HR. destruct (cov_to_corrcoef _) as [Rm|]; [|reflexivity]. cbn [bind holds] in *.
    destruct (sc_n_eff _); [|reflexivity]. cbn [bind]. unfold sc_gamma_star. rewrite (nrows_sh p p _ HR). unfold block_id1. now rewrite E.
  - intros f s _ H. discriminate.
Qed.
(** n_blocks below one means one, above p means p: BlockCovariance and SchurConditionalCovariance *)
Theorem C94_clamped_blocks :
  forall (N : Num) (L : LinAlg N), la_shapes L -> forall (r : N) d k p, 1 <= p ->
    ((k <= 1)%Z -> interchangeable L (C := Block L) p (mkBlkP r k d) (mkBlkP r 1 d) /\ interchangeable L (C := SchurCond L) p (mkBlkP r k d) (mkBlkP r 1 d)) /\
    ((Z.of_nat p <= k)%Z -> interchangeable L (C := Block L) p (mkBlkP r k d) (mkBlkP r (Z.of_nat p) d) /\
                            interchangeable L (C := SchurCond L) p (mkBlkP r k d) (mkBlkP r (Z.of_nat p) d)).
Proof.
  intros N L HL r d k p Hp. split; intros Hk; (split; [apply block_same|apply sc_same]); auto; lia.
Qed.
(** more blocks than variables mean one variable per block, more factors than variables mean p factors *)
Theorem C94_clamped_above :
  forall (N : Num) (L : LinAlg N), la_shapes L -> forall (r g : N) interp d k p, 1 <= p -> (Z.of_nat p <= k)%Z ->
    interchangeable L (C := Schur L) p (mkSchP r k g interp d) (mkSchP r (Z.of_nat p) g interp d) /\
    interchangeable L (C := SchurLW L) p (mkBlkP r k d) (mkBlkP r (Z.of_nat p) d) /\
    interchangeable L (C := Factor) p (mkFacP k r d) (mkFacP (Z.of_nat p) r d).
Proof.
  intros N L HL r g interp d k p Hp Hk.
  assert (B : block_id k p = block_id (Z.of_nat p) p) by (unfold block_id; now replace (Z.min k (Z.of_nat p)) with (Z.min (Z.of_nat p) (Z.of_nat p)) by lia).
  split; [|split].
  - refine (by_interchangeable L (C := Schur L) _ _ (ewa_like_by "SchurCovariance" SchP sch_diff sch_r (sch_cov L) (fun Pm => sch_cov_sh L HL Pm)) p _ _ Hp _ _ _ _ _ _); try reflexivity.
    + intros s W. unfold sch_ewa, sch_emp in W. cbn [app] in W. open_conf W. cbn [c_cov Schur dict_class]. unfold sch_cov. red_get. cbn [sch_n_blocks sch_gamma sch_interp]. now rewrite B.
    + intros f s _ H. discriminate.
  - refine (by_interchangeable L (C := SchurLW L) _ _ (SchurLW_by L HL) p _ _ Hp _ _ _ _ _ _); try reflexivity.
    + intros s x W Hx. unfold sch_slw, sch_ewa, sch_emp in W. cbn [app] in W. open_conf W. cbn [c_update SchurLW dict_class]. unfold slw_update. red_get. cbn [blk_n_blocks]. now rewrite B.
    + intros s W. unfold sch_slw, sch_ewa, sch_emp in W. cbn [app] in W. open_conf W. cbn [c_cov SchurLW dict_class]. unfold slw_cov, slw_gamma. red_get. cbn [blk_n_blocks]. now rewrite B.
    + intros f s _ H. discriminate.
  - refine (by_interchangeable L (C := Factor) _ _ Factor_by p _ _ Hp _ _ _ _ _ _); try reflexivity.
    + cbn [c_init Factor dict_class]. unfold fac_init. cbn [fac_k fac_r]. now replace (Z.min k (Z.of_nat p)) with (Z.min (Z.of_nat p) (Z.of_nat p)) by lia.
    + intros f s _ H. discriminate.
Qed.
(** SchurCovariance with n_blocks <= 0: data are absorbed and located, every covariance read raises ValueError *)
Theorem C94_schur_no_blocks :
  forall (N : Num) (L : LinAlg N), la_shapes L -> forall (P : SchP) p rows o, (sch_n_blocks P <= 0)%Z -> sch_diff P = false -> 1 <= p -> rows_of_length p rows -> rows <> [] ->
    partial_fit (new (C := Schur L) P) (In2 rows) = (o, Ok tt) ->
    n_samples_ o = Ok (length rows) /\ (exists m, location_ o = Ok m /\ length m = p) /\
    covariance_ o = Err ValueError /\ correlation_ o = Err ValueError /\ precision_ L o = Err ValueError /\
    forall x, length x = p -> exists o', partial_fit o (In1 x) = (o', Ok tt).
Proof.
  intros N L HL P p rows o Hk HD Hp Hr Hne E. 
  assert (HB : behaved_by (Schur L) (fun p s => conforms (sch_ewa p) s) eq) by exact (ewa_like_by "SchurCovariance" SchP sch_diff sch_r (sch_cov L) (fun Pm => sch_cov_sh L HL Pm)).
  destruct (fitted_shape _ _ HB P p rows o Hp HD Hr Hne E) as (s & -> & W & Hn). set (o := mkInst (C := Schur L) _ _ _ _).
  assert (F : fitted_state o = Ok s).
  { unfold fitted_state, o. cbn [i_state]. rewrite Hn. cbn [get_or bind]. destruct rows; [congruence|reflexivity]. }
  assert (V : covariance_ o = Err ValueError).
  { unfold covariance_. rewrite F. cbn [bind]. unfold sch_ewa, sch_emp in W. cbn [app] in W. open_conf W. cbn [c_cov Schur dict_class]. unfold sch_cov. red_get.
    unfold block_id, split_sizes. cbn [o i_params]. destruct (Z.leb_spec (Z.min (sch_n_blocks P) (Z.of_nat p)) 0); [reflexivity|lia]. }
  split; [exact Hn|]. split.
  { unfold location_. rewrite F. cbn [bind]. exact (bh_mean _ _ _ HB P p s Hp W). }
  split; [exact V|]. split; [unfold correlation_; now rewrite V|]. split; [unfold precision_; cbn [c_prec Schur dict_class]; now rewrite V|].
  intros x Hx. unfold partial_fit. cbn [as_rows fit_rows]. unfold fit_row, absorb, o. cbn [i_params i_state i_nfeat i_prev c_diff Schur dict_class]. rewrite HD. cbn [c_update].
  assert (U : exists s', ewa_update s x = Ok s').
  { unfold sch_ewa, sch_emp in W. cbn [app] in W. open_conf W.
    match goal with |- exists s', ewa_update [("n_dim", VInt _); ("n_samples", VInt ?n); ("mean", VArr (A1 ?m)); ("cov", VArr (A2 ?c)); ("r", VNum ?r); ("n_burn", VInt ?b)] x = _ =>
      destruct (ewa_update_canon p n r b m c x) as (m' & c' & EU & _); auto; exact (ex_intro _ _ EU) end. }
  destruct U as (s' & EU). replace (c_update (Schur L) P s x) with (@Ok (dict N) s') by (symmetry; exact EU). eauto.
Qed.
(** SchurLedoitWolfCovariance with n_blocks <= 0: covariance reads raise ValueError from the first row on; the rows of the burn-in are absorbed,
    every row after it is refused. *)
Theorem C94_schur_lw_no_blocks :
  forall (N : Num) (L : LinAlg N), la_shapes L -> forall (P : BlkP) p rows o nb, (blk_n_blocks P <= 0)%Z -> blk_diff P = false -> 1 <= p -> rows_of_length p rows -> rows <> [] ->
    ewa_burn_n (blk_r P) = Ok nb -> partial_fit (new (C := SchurLW L) P) (In2 rows) = (o, Ok tt) ->
    n_samples_ o = Ok (length rows) /\ length rows <= nb /\ (exists m, location_ o = Ok m /\ length m = p) /\
    covariance_ o = Err ValueError /\ correlation_ o = Err ValueError /\ precision_ L o = Err ValueError /\
    (length rows < nb -> forall x, length x = p -> exists o', partial_fit o (In1 x) = (o', Ok tt)) /\
    (length rows = nb -> forall x, partial_fit o (In1 x) = (o, Err ValueError)).
Proof.
  intros N L HL P p rows o nb Hk HD Hp Hr Hne Hb E. pose proof (SchurLW_by L HL) as HB.
  assert (BI : forall q, 1 <= q -> block_id (blk_n_blocks P) q = Err ValueError).
  { intros q Hq. unfold block_id, split_sizes. destruct (Z.leb_spec (Z.min (blk_n_blocks P) (Z.of_nat q)) 0); [reflexivity|lia]. }
  destruct (fitted_inv (C := SchurLW L) P (fun s n => (conforms (sch_slw p) s /\ dict_nsamples s = Ok n) /\ getI "n_burn" s = Ok nb /\ n <= nb) p rows o HD Hr Hne) as (s & -> & (W & Hn) & Hnb & Hle); [| |exact E|].
  { intros s Ei. split; [exact (bh_init _ _ _ HB P p s Hp Ei)|]. cbn [c_init SchurLW dict_class] in Ei. unfold slw_init, ewa_init in Ei. rewrite Hb in Ei. cbn [bind] in Ei. injection Ei as <-. split; [reflexivity|lia]. }
  { intros s x s' n [[W Hn] [Hnb Hle]] Hx Eu. destruct (bh_update _ _ _ HB _ _ _ _ _ Hp W Hx Eu) as [W' (m & E1 & E2)].
    cbn [c_nsamples SchurLW dict_class] in E1, E2. split; [split; [exact W'|congruence]|].
    cbn [c_update SchurLW dict_class] in Eu. unfold slw_update in Eu. unfold dict_nsamples in Hn. rewrite Hn, Hnb in Eu. cbn [bind] in Eu.
    assert (Q : n < nb).
    { destruct (Nat.ltb_spec n nb) as [|Hge]; [assumption|]. exfalso. unfold sch_slw, sch_ewa, sch_emp in W. cbn [app] in W. open_conf W. cbn in Hn, Hnb. injection Hn as ->. injection Hnb as ->.
      revert Eu. red_get. destruct (Nat.ltb_spec n nb); [lia|]. rewrite (BI p Hp). discriminate. }
    split; [|exact Q]. apply Nat.ltb_lt in Q. rewrite Q in Eu. unfold sch_slw, sch_ewa, sch_emp in W. cbn [app] in W. open_conf W. cbn in Hn, Hnb. injection Hn as ->. injection Hnb as ->.
    cbn [getI getN getV getM dget String.eqb Ascii.eqb Bool.eqb bind] in Eu. keep Eu. }
  set (o := mkInst (C := SchurLW L) _ _ _ _).
  assert (F : fitted_state o = Ok s).
  { unfold fitted_state, o. cbn [i_state c_nsamples SchurLW dict_class]. rewrite Hn. cbn [get_or bind]. destruct rows; [congruence|reflexivity]. }
  assert (V : covariance_ o = Err ValueError).
  { unfold covariance_. rewrite F. cbn [bind]. unfold sch_slw, sch_ewa, sch_emp in W. cbn [app] in W. open_conf W. cbn [c_cov SchurLW dict_class]. unfold slw_cov, slw_gamma. red_get.
    cbn [o i_params]. now rewrite (BI p Hp). }
  split; [exact Hn|]. split; [exact Hle|]. split.
  { unfold location_. rewrite F. cbn [bind]. exact (bh_mean _ _ _ HB P p s Hp W). }
  split; [exact V|]. split; [unfold correlation_; now rewrite V|]. split; [unfold precision_; cbn [c_prec SchurLW dict_class]; now rewrite V|].
  split; intros Hl x.
  - intros Hx. assert (U : exists s', slw_update P s x = Ok s').
    { unfold sch_slw, sch_ewa, sch_emp in W. cbn [app] in W. open_conf W. cbn in Hn, Hnb. injection Hn as ->. injection Hnb as ->. unfold slw_update. red_get. apply Nat.ltb_lt in Hl. rewrite Hl.
      match goal with |- context [emp_update ?s x] => assert (U : holds (fun _ => False) (fun _ => True) (emp_update s x)) end.
      { eapply holds_mono; [eapply (emp_update_sh (fun _ => False) p); first [reflexivity|eassumption]|auto|auto]. }
      destruct (emp_update _ x); [|contradiction]. cbn [bind]. eauto. }
    destruct U as (s' & EU). unfold partial_fit. cbn [as_rows fit_rows]. unfold fit_row, absorb, o. cbn [i_params i_state i_nfeat i_prev]. change (c_diff (SchurLW L) P) with (blk_diff P). rewrite HD.
    replace (c_update (SchurLW L) P s x) with (@Ok (dict N) s') by (symmetry; exact EU). eauto.
  - assert (U : slw_update P s x = Err ValueError).
    { unfold sch_slw, sch_ewa, sch_emp in W. cbn [app] in W. open_conf W. cbn in Hn, Hnb. injection Hn as ->. injection Hnb as ->. unfold slw_update. red_get. now rewrite Hl, Nat.ltb_irrefl, (BI p Hp). }
    unfold partial_fit. cbn [as_rows fit_rows]. unfold fit_row, absorb, o. cbn [i_params i_state i_nfeat i_prev]. change (c_diff (SchurLW L) P) with (blk_diff P). rewrite HD.
    replace (c_update (SchurLW L) P s x) with (@Err (dict N) ValueError) by (symmetry; exact U). reflexivity.
Qed.
(** FactorCovariance with a negative k cannot be fitted: the first row raises ValueError *)
Theorem C94_factor_negative :
  forall (N : Num) (P : c_P (Factor (N := N))) x rows, (fac_k P < 0)%Z -> fac_diff P = false ->
    exists o, partial_fit (new (C := Factor) P) (In2 (x :: rows)) = (o, Err ValueError) /\ n_samples_ o = Ok 0 /\ location_ o = Err NotFittedError.
Proof.
  intros N P x rows Hk HD. unfold partial_fit. cbn [as_rows fit_rows]. unfold fit_row, absorb, new. cbn [i_params i_state i_nfeat i_prev c_diff c_init Factor dict_class]. rewrite HD.
  unfold fac_init. destruct (Z.ltb_spec (Z.min (fac_k P) (Z.of_nat (length x))) 0); [|lia]. eexists. split; [reflexivity|]. split; reflexivity.
Qed.

(** ** The hypotheses are met *)
Example C94_met_schur : forall L : LinAlg NumF, snd (partial_fit (new (C := Schur L) (mkSchP (N := NumF) (nlit 5 1) 0 (nlit 5 1) "linear" false)) (In2 [[nlit 1 0; nlit 2 0]; [nlit 25 1; nlit 3 0]])) = Ok tt.
Proof. intros. vm_compute. reflexivity. Qed.
Example C94_met_schur_lw : forall L : LinAlg NumF, ewa_burn_n (N := NumF) (nlit 5 1) = Ok 5 /\
  snd (partial_fit (new (C := SchurLW L) (mkBlkP (N := NumF) (nlit 5 1) 0 false)) (In2 [[nlit 1 0; nlit 2 0]; [nlit 25 1; nlit 3 0]])) = Ok tt /\
  snd (partial_fit (new (C := SchurLW L) (mkBlkP (N := NumF) (nlit 5 1) 0 false)) (In2 [[nlit 1 0]; [nlit 2 0]; [nlit 25 1]; [nlit 3 0]; [nlit 7 0]])) = Ok tt.
Proof. intros. vm_compute. repeat split. Qed.

(** * C97: cases in which the harnesses of research/oos.py and research/bakeoff.py complete *)
From Coq Require Import Reals ZArith Bool String List Lia Lra Arith Permutation.
From Verif Require Import Num Numpy PyVal LinalgModel StateModel BaseModel Estimators RegistryModel ParamsModel AssessModel RecommendModel
  Spec RMat LinSpec Fin RealSpec GaussSpec AssessSpec RunFin EwaReal RunAvg EmpFacts Props_Emp ShrinkReal Spectral MatAlg Det Contracts LinalgReal
  BlockSpec BlockGeom BlockReal BlockRun GaussReal ScoreReal AssessReal AssessBlock Props_Score Props_Assess RecommendSpec RecommendReal Props_RecommendReal Props_Recommend Props_Params FloatEwa
  OosModel OosSpec Props_Oos Props_OosReal Props_OosRun Props_OosWitness Props_Ranks.
Import ListNotations.
Local Open Scope string_scope.
Local Open Scope R_scope.

Lemma loglik_ok L p A xs T : lawful L -> (1 <= p)%nat -> xs <> [] -> pd p A -> exists s, assess L LogLikelihood (fm p p A) (Some (map (fv p) xs)) T = Ok s.
Proof. intros HL Hp Hx HA. eexists. cbn [assess]. apply (loglik_fin L HL p A xs); auto. Qed.
(** Every registered assessor returns a score for a positive definite estimate. *)
Lemma assess_ok L p A xs (T : rmat) a : lawful L -> (1 <= p)%nat -> xs <> [] -> pd p A -> (exists i j, (i < p)%nat /\ (j < p)%nat /\ T i j <> 0) ->
  In a (all_assessors (N := NumX)) -> exists s, assess L a (fm p p A) (Some (map (fv p) xs)) (Some (fm p p T)) = Ok s.
Proof.
  intros HL Hp Hx HA HT Ha. repeat (destruct Ha as [<-|Ha]); try contradiction.
  - now apply loglik_ok.
  - destruct (C64_sum_over_blocks L p 10 A xs (Some (fm p p T)) HL Hp ltac:(lia) Hx HA) as (n & s & _ & _ & _ & E). eexists. exact E.
  - assert (EL : @nlit NumX 5 1 = Fin (1/2)) by (rewrite nlit_fin; f_equal; cbn; lra). rewrite EL. cbn [assess].
    rewrite schur_lik_linear by (auto; try lia; discriminate). eexists. apply (loglik_fin L HL p); auto. apply (bb_pd p e8); [unfold e8; lra|]. now apply (mpd_ok L HL).
  - destruct (C70_stein L p A xs (Some (fm p p T)) HL Hp Hx HA) as [H1 H2].
    destruct (Req_dec (rdet p (pcov_of xs)) 0) as [Z|NZ].
    + eexists. apply H2. apply psd_det0; auto. apply psd_pcov.
    + destruct H1 as (s & E & _); [|eauto]. apply psd_invertible_pd; [apply psd_pcov|]. now apply rdet_invertible.
  - destruct (C62_frobenius L p p A T (Some (map (fv p) xs)) HT) as (s & E & _). eauto.
  - destruct (C63_gmv_is_portfolio_second_moment L p A xs (Some (fm p p T)) HL Hp Hx HA) as (B & _ & _ & E & _). eauto.
  - destruct (C62_variogram L p A xs (Some (fm p p T)) HL Hp Hx) as (s & E & _). eauto.
Qed.
Lemma mapM_exists {A B} (f : A -> res B) l : (forall a, In a l -> exists b, f a = Ok b) -> exists bs, mapM f l = Ok bs.
Proof.
  induction l as [|a l IH]; intros H; [exists []; reflexivity|]. destruct (H a (or_introl eq_refl)) as (b & Eb). destruct IH as (bs & E); [auto with *|].
  exists (b :: bs). cbn [mapM]. rewrite Eb. cbn [bind]. now rewrite E.
Qed.
(** A scenario on which every estimator's fit is positive definite never stops the bake-off. *)
Theorem C97_run_completes L fuel (scs : list (@scenario NumX)) : lawful L ->
  (forall nm train test truth, In (nm, train, test, truth) scs -> exists p (ys : list obs) (T : rmat), (1 <= p)%nat /\ ys <> [] /\ test = map (fv p) ys /\ truth = fm p p T /\
     (exists i j, (i < p)%nat /\ (j < p)%nat /\ T i j <> 0) /\
     forall k, In k (signatures L fuel) -> exists A, fit_cov k train = Ok (fm p p A) /\ pd p A) ->
  exists results, run L fuel scs = Ok results.
Proof.
  intros HL H. unfold run.
  match goal with |- exists _, bind ?m _ = _ => assert (G : exists grid, m = Ok grid) end.
  { apply mapM_exists. intros [[[nm train] test] truth] Hi. destruct (H _ _ _ _ Hi) as (p & ys & T & Hp & Hy & -> & -> & HT & HF).
    match goal with |- exists _, bind ?m _ = _ => assert (G : exists row, m = Ok row) end.
    { apply mapM_exists. intros k Hk. destruct (HF k Hk) as (A & -> & HA). cbn [bind]. unfold cell_scores.
      match goal with |- exists _, bind ?m _ = _ => assert (G : exists s, m = Ok s) end.
      { apply mapM_exists. intros a Ha. apply filter_In in Ha as [Ha _]. destruct (assess_ok L p A ys T a HL Hp Hy HA HT Ha) as (s & Es). exists (aname a, s). change (bind (or_minus_inf (assess L a (fm p p A) (Some (map (fv p) ys)) (Some (fm p p T)))) (fun s => Ok (aname a, s)) = Ok (aname a, s)). now rewrite Es. }
      destruct G as (s & ->). cbn. eauto. }
    destruct G as (row & ->). cbn. eauto. }
  destruct G as (grid & E1). rewrite E1. cbn [bind]. apply mapM_exists. intros k Hk.
  match goal with |- exists _, bind ?m _ = _ => assert (G : exists cells, m = Ok cells) end.
  { apply mapM_exists. intros g Hg. destruct (mapM_in _ _ _ E1 _ Hg) as ([[[nm train] test] truth] & Hsc & Eg). cbn beta iota in Eg. apply bind_ok in Eg as (row & Er & Eg). injection Eg as <-.
    cbn [fst snd]. destruct (key_some row (est_name k)) as (v & ->); [|cbn; eauto].
    replace (map fst row) with (map est_name (ests L fuel)); [now apply in_map|]. symmetry.
    refine (mapM_fst _ _ _ _ _ Er). intros k0 x Hx. apply bind_ok in Hx as (c0 & _ & Hx). apply bind_ok in Hx as (c1 & _ & Hx). now injection Hx as <-. }
  destruct G as (cells & ->). cbn. eauto.
Qed.

Example C97_run_witness : exists L results, lawful L /\
  run L 1 [("toy", map (fv 1) toy_train, map (fv 1) toy_train, fm 1 1 rI)] = Ok results /\ length results = 17%nat.
Proof.
  destruct lawful_satisfiable as (L & HL). exists L.
  destruct (C97_run_completes L 1 [("toy", map (fv 1) toy_train, map (fv 1) toy_train, fm 1 1 rI)] HL) as (results & E).
  { intros nm train test truth [Hi|[]]. injection Hi as <- <- <- <-. exists 1%nat, toy_train, rI. split; [lia|]. split; [discriminate|]. split; [reflexivity|]. split; [reflexivity|].
    split; [exists O, O; repeat split; try lia; unfold rI; cbn; lra|]. intros k Hk. exact (toy_pd L k HL Hk). }
  exists results. split; [exact HL|]. split; [exact E|].
  destruct (C97_run L 1 _ _ E) as [HF _]; [repeat constructor; auto|]. rewrite <- (map_length fst), HF. reflexivity.
Qed.
Example C97_trial_witness : exists L sc rec, lawful L /\ trial L 1 true LogLikelihood (map (fv 1) toy_train) (map (fv 1) toy_train) = Ok (sc, rec) /\ length sc = 17%nat.
Proof.
  destruct lawful_satisfiable as (L & HL). exists L.
  destruct (trial L 1 true LogLikelihood (map (fv 1) toy_train) (map (fv 1) toy_train)) as [[sc rec]|e] eqn:E.
  - exists sc, rec. split; [exact HL|]. split; [reflexivity|]. destruct (C97_trial L 1 true _ _ _ _ _ E) as [HF _]. rewrite <- (map_length fst), HF. reflexivity.
  - exfalso. unfold trial in E.
    match type of E with bind ?m _ = _ => assert (G : exists s, m = Ok s) end.
    { apply mapM_exists. intros k Hk. destruct (toy_pd L k HL Hk) as (A & -> & HA). cbn [bind]. destruct (loglik_ok L 1 A toy_train None HL (le_n 1) ltac:(discriminate) HA) as (s & Es). exists (est_name k, s). change (bind (or_minus_inf (assess L LogLikelihood (fm 1 1 A) (Some (map (fv 1) toy_train)) None)) (fun s => Ok (est_name k, s)) = Ok (est_name k, s)). now rewrite Es. }
    destruct G as (s & Es). rewrite Es in E. cbn [bind] in E.
    destruct (C73_features L 1 toy_train HL (le_n 1) ltac:(discriminate)) as (f & _ & _ & _ & Ef & _).
    destruct (ranking_perm L 1 true f) as (rk & Erk & P).
    unfold suggest in E. change (In2 (N := NumX) (map (fv 1) toy_train)) with (sample 1 toy_train) in E. rewrite Ef in E. cbn [bind] in E. rewrite Erk in E. cbn [bind] in E.
    destruct rk as [|r rk]; [apply Permutation_length in P; discriminate|]. discriminate E.
Qed.
(** Four scores with a tie and a failure: the tie goes to the earlier entry, the failure comes last. *)
Example C97_ranks_witness :
  ranks (N := NumX) [("a", Fin 1); ("b", NInf); ("c", Fin 2); ("d", Fin 1)] = [("c", 1%nat); ("a", 2%nat); ("d", 3%nat); ("b", 4%nat)].
Proof.
  unfold ranks, sorted_num. cbn. unfold Rleb.
  repeat (destruct Rle_dec; try lra; cbn; unfold Rleb). reflexivity.
Qed.
Example C97_best_fixed_witness : exists nm, best_fixed (N := NumX) [[("a", Fin 1); ("b", NInf)]; [("a", Fin 0); ("b", Fin 2)]; [("b", Fin 1); ("a", Fin 3)]] = Ok nm /\ In nm ["a"; "b"].
Proof.
  destruct (C97_best_fixed [[("a", Fin 1); ("b", NInf)]; [("a", Fin 0); ("b", Fin 2)]; [("b", Fin 1); ("a", Fin 3)]] ["a"; "b"]) as (nm & rs & E & Hn & _); try discriminate; eauto.
  - repeat constructor; cbn; intuition discriminate.
  - intros t [<-|[<-|[<-|[]]]]; cbn; auto using perm_swap.
Qed.

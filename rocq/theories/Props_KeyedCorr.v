(** * C99: correlations read from a keyed adapter *)
From Coq Require Import Reals ZArith Bool String List Lia Lra Arith.
From Verif Require Import Num Numpy PyVal LinalgModel StateModel BaseModel Estimators RegistryModel KeyedModel
  Spec KeyedSpec ListLemmas BaseProofs RMat LinSpec Fin RealSpec RunFin EwaReal EmpFacts Props_Emp MatAlg LinalgReal Props_Corr StreamProofs Props_Stream KeyedProofs Props_Keyed Props_KeyedRead.
Import ListNotations.
Local Open Scope string_scope.
Local Open Scope list_scope.
Local Open Scope R_scope.

(** what [get_corr] makes of a covariance F *)
Definition keyed_corr (F : rmat) : rmat := fun i j => if Nat.eqb i j then 1 else F i j / (sqrt (F i i * F j j) + 1 / 10 ^ 12).
Lemma keyed_corr_split F : forall i j, keyed_corr F i j = reported_corr F i j + rdiag (fun k => 1 - reported_corr F k k) i j.
Proof. intros i j. unfold keyed_corr, reported_corr, rdiag. destruct (Nat.eqb_spec i j) as [->|]; [ring|ring]. Qed.
Lemma diag_gap p F i : psd p F -> (i < p)%nat -> 0 <= 1 - reported_corr F i i.
Proof.
  intros HF Hi. unfold reported_corr. fold e12. pose proof (psd_diag_nonneg p F i HF Hi) as H. pose proof e12_pos as E. rewrite sqrt_square by auto.
  replace (1 - F i i / (F i i + e12)) with (e12 / (F i i + e12)) by (field; lra). left. apply Rdiv_lt_0_compat; lra.
Qed.
Lemma corr_le_1 p F i j : psd p F -> (i < p)%nat -> (j < p)%nat -> Rabs (reported_corr F i j) <= 1.
Proof. intros. unfold reported_corr. fold e12. now apply (corr_bound p). Qed.
(** [get_corr] of a semidefinite covariance: exactly 1 on the diagonal (also for a variable of zero variance, where the positional
    [correlation_] has 0), symmetric, entries in [-1, 1]; positive semidefinite for one or two names, and in general no eigenvalue
    below - p 1e-12 / (smallest variance). *)
Theorem C99_correlation (L : LinAlg NumX) fuel (C : EstClass NumX) (a : adapter C) keys p F : (1 <= p)%nat ->
  get_cov L fuel a keys = Ok (fm p p F) -> psd p F ->
  get_corr L fuel a keys = Ok (fm p p (keyed_corr F)) /\ sym p (keyed_corr F) /\
  (forall i j, (i < p)%nat -> (j < p)%nat -> Rabs (keyed_corr F i j) <= 1) /\
  ((p <= 2)%nat -> psd p (keyed_corr F)) /\
  (forall m, 0 < m -> (forall i, (i < p)%nat -> m <= F i i) -> forall v, - (INR p * (1 / 10 ^ 12) / m) * rdot p v v <= qf p (keyed_corr F) v).
Proof.
  intros Hp EC HF. assert (SK : sym p (keyed_corr F)).
  { intros i j Hi Hj. unfold keyed_corr. rewrite (Nat.eqb_sym j i). destruct (Nat.eqb i j); [reflexivity|]. now rewrite (proj1 HF i j Hi Hj), (Rmult_comm (F j j)). }
  assert (B : forall i j, (i < p)%nat -> (j < p)%nat -> Rabs (keyed_corr F i j) <= 1).
  { intros i j Hi Hj. unfold keyed_corr. destruct (Nat.eqb i j); [rewrite Rabs_R1; lra|]. exact (corr_le_1 p F i j HF Hi Hj). }
  split; [|split; [exact SK|split; [exact B|split]]].
  - unfold get_cov in EC. unfold get_corr. destruct (cov_array L fuel a keys) as [[M q]|]; [|discriminate]. cbn [bind fst] in *. injection EC as ->.
    rewrite cov_to_corrcoef_fin by (intros; now apply (psd_diag_nonneg p)). cbn [bind]. f_equal. unfold fill_diagonal. rewrite fm_nrows, fm_ncols by auto. unfold fm at 2. apply tab2_ext. intros i j Hi Hj. rewrite fm_get by auto.
    unfold keyed_corr. fold e12. now destruct (Nat.eqb i j).
  - intros Hp2. split; [exact SK|]. intros v. destruct p as [|[|[|p]]]; try lia; unfold qf; cbn [rsum].
    + unfold keyed_corr. cbn [Nat.eqb]. pose proof (Rle_0_sqr (v 0%nat)). unfold Rsqr in *. lra.
    + assert (R10 : keyed_corr F 1%nat 0%nat = keyed_corr F 0%nat 1%nat) by (apply SK; lia). rewrite R10.
      assert (R00 : keyed_corr F 0%nat 0%nat = 1) by reflexivity. assert (R11 : keyed_corr F 1%nat 1%nat = 1) by reflexivity. rewrite R00, R11.
      set (r := keyed_corr F 0%nat 1%nat) in *. assert (Hr : -1 <= r <= 1). { specialize (B 0%nat 1%nat ltac:(lia) ltac:(lia)). fold r in B. pose proof (Rle_abs r). pose proof (Rle_abs (- r)) as X. rewrite Rabs_Ropp in X. lra. }
      set (x := v 0%nat). set (y := v 1%nat).
      replace (0 + (0 + x * 1 * x + x * r * y) + (0 + y * r * x + y * 1 * y)) with ((1 + r) / 2 * ((x + y) * (x + y)) + (1 - r) / 2 * ((x - y) * (x - y))) by field.
      apply Rplus_le_le_0_compat; apply Rmult_le_pos; try lra; apply Rle_0_sqr.
  - intros m Hm Hd v. rewrite (qf_ext p _ (fun i j => reported_corr F i j + rdiag (fun k => 1 - reported_corr F k k) i j) v v) by (auto; intros i j _ _; apply keyed_corr_split).
    rewrite qf_plus, qf_diag. pose proof (reported_nearly_psd p F m HF Hm Hd v).
    assert (0 <= rsum p (fun i => (1 - reported_corr F i i) * v i ^ 2)) by (apply rsum_nonneg; intros i Hi; apply Rmult_le_pos; [now apply (diag_gap p)|apply pow2_ge_0]). lra.
Qed.

(** With three names it need not be semidefinite: three perfectly correlated variables with standard deviations 1, 1 and 100. *)
Definition obs3 (s : R) : KeyedModel.obs NumX := [("a", Fin s : NumX); ("b", Fin s : NumX); ("c", Fin (100 * s) : NumX)]%list.
Theorem C99_correlation_not_psd (L : LinAlg NumX) fuel (proto : inst Empirical) : exists u0 u rs R v,
  fixed_new (C := Empirical) (ByClass (C := Empirical) (mkEmpP false)) false None "ffill" = Ok u0 /\ run_fixed proto u0 [obs3 1; obs3 (-1)]%list = (u, rs) /\ no_raise rs /\
  get_corr L fuel (AFixed u) None = Ok (fm 3 3 R) /\ qf 3 R v < 0.
Proof.
  eexists. destruct (run_fixed proto (mkFixed (C := Empirical) (ByClass (C := Empirical) (mkEmpP false)) None "ffill" None) [obs3 1; obs3 (-1)]%list) as [u rs] eqn:ER.
  exists u, rs. set (w := fun i : nat => if Nat.ltb i 2 then 1 else 100).
  set (F := fun i j : nat => w i * w j).
  exists (keyed_corr F), (fun i => if Nat.ltb i 2 then 1 else -2).
  split; [reflexivity|]. split; [exact ER|].
  destruct (C50_fixed_universe_refines_positional NumX Empirical proto (ByClass (C := Empirical) (mkEmpP false)) None "ffill" _ [obs3 1; obs3 (-1)]%list u rs eq_refl ltac:(discriminate)) as (W & RS & K).
  { constructor; [intros k Hk; exact Hk|]. constructor; [intros k Hk; exact Hk|constructor]. }
  { exact ER. }
  set (x := fun i : nat => w i). set (y := fun i : nat => - w i).
  destruct (Empirical_run 3 false _ _ (observes_plain 3 [x; y]%list) ltac:(discriminate)) as (o & E1 & _ & _ & E4 & _).
  assert (EV : map (values (universe_names None [obs3 1; obs3 (-1)]%list)) [obs3 1; obs3 (-1)]%list = map (fv 3) [x; y]%list).
  { cbn. unfold fv, x, y, w. cbn. replace (100 * 1) with 100 by ring. replace (100 * -1) with (- (100)) by ring. reflexivity. }
  rewrite EV in W, RS.
  assert (RR : run (make (ByClass (C := Empirical) (mkEmpP false)) proto) (feed (map (fv 3) [x; y]%list)) = (o, map (fun _ => Ok tt) (map (fv 3) [x; y]%list))).
  { etransitivity; [apply (C01_accepted_batch_as_calls NumX Empirical)|]; [exact (f_equal snd E1)|]. f_equal. exact (f_equal fst E1). }
  rewrite RR in W, RS. cbn [fst snd] in W, RS.
  split. { rewrite RS. repeat constructor. }
  assert (EC : get_cov L fuel (AFixed u) None = Ok (fm 3 3 F)).
  { unfold get_cov, cov_array, fixed_cov_array. unfold wrapped in W. destruct (fx_core u) as [[o' last]|]; [|discriminate]. cbn in W. injection W as ->. rewrite K, E4. cbn [bind fst]. f_equal. apply fm_ext. intros i j _ _.
    unfold pcov_of, mean_of. cbn. unfold F, x, y. field. }
  assert (PF : psd 3 F). { split; [intros i j _ _; unfold F; ring|]. intros v. unfold F. rewrite qf_outer. apply pow2_ge_0. }
  destruct (C99_correlation L fuel Empirical (AFixed u) None 3 F ltac:(lia) EC PF) as [G _]. split; [exact G|].
  unfold qf, keyed_corr, F, w. cbn [rsum Nat.eqb Nat.ltb Nat.leb]. fold e12.
  replace (1 * 1 * (1 * 1)) with (1 * 1) by ring. replace (1 * 1 * (100 * 100)) with (100 * 100) by ring. replace (100 * 100 * (1 * 1)) with (100 * 100) by ring. rewrite !sqrt_square by lra. pose proof e12_pos as E.
  assert (E2 : e12 < 1) by (unfold e12; lra).
  assert (X : 1 * 1 / (1 + e12) - 1 = - (e12 / (1 + e12))) by (field; lra). assert (Y : 1 * 100 / (100 + e12) - 1 = - (e12 / (100 + e12))) by (field; lra).
  assert (Z : 4 * (e12 / (100 + e12)) < e12 / (1 + e12)).
  { apply (Rmult_lt_reg_r ((100 + e12) * (1 + e12))); [apply Rmult_lt_0_compat; lra|]. replace (4 * (e12 / (100 + e12)) * ((100 + e12) * (1 + e12))) with (e12 * (4 * (1 + e12))) by (field; lra).
    replace (e12 / (1 + e12) * ((100 + e12) * (1 + e12))) with (e12 * (100 + e12)) by (field; lra). apply Rmult_lt_compat_l; lra. }
  rewrite (Rmult_comm 100 1). lra.
Qed.

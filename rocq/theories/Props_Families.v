(** * C102: the synthetic truths of research/oos.py and research/bakeoff.py are covariance matrices *)
From Coq Require Import Reals ZArith Bool String List Lia Lra Arith.
From Verif Require Import Num Numpy ListLemmas RMat LinSpec Fin RealSpec EwaReal EmpFacts ShrinkReal Spectral MatAlg Contracts LinalgReal AssessReal OosModel TrainModel
  ResearchSpec ResearchReal ResearchModel Props_Research ResearchRun Props_SpikedTruth Props_Train Props_TrainRun.
Import ListNotations.
Local Open Scope string_scope.
Local Open Scope R_scope.

(** ** Specification *)
(** What numpy documents of the draws: uniform draws lie in the interval, normal draws are finite; and the Q of a QR factorisation is orthogonal. *)
Record fair (G : Rand NumX) : Prop := mkFair {
  fair_uniform : forall lo hi n g, lo <= hi -> exists x, fst (r_uniform G (Fin lo) (Fin hi) n g) = fv n x /\ forall i, (i < n)%nat -> lo <= x i <= hi;
  fair_normal : forall n m g, exists B, fst (r_normal G n m g) = fm n m B }.
Definition qr_lawful (np_qr : mat NumX -> res (mat NumX)) : Prop :=
  forall p A, (1 <= p)%nat -> exists Q, np_qr (fm p p A) = Ok (fm p p Q) /\ orth p Q.
(** A lower bound on the eigenvalues of each family *)
Definition floor_of (nm : string) : R :=
  if String.eqb nm "equicorr" then 2 / 5 else if String.eqb nm "spiked" then 2 / 5 else if String.eqb nm "diag_hetero" then 1 / 10
  else if String.eqb nm "ar1_toeplitz" then 3 / 17 else if String.eqb nm "ar1_heavy" then 3 / 17 else 1 / 5.

(** ** The six matrices *)
Lemma diag_floor p (d : nat -> R) lo : (forall i, (i < p)%nat -> lo <= d i) -> bounded_below p lo (rdiag d).
Proof.
  intros H. split; [intros i j _ _; unfold rdiag; destruct (Nat.eqb_spec i j), (Nat.eqb_spec j i); congruence|]. intros v. rewrite qf_diag. unfold rdot. rewrite <- rsum_scal.
  apply rsum_le. intros i Hi. specialize (H i Hi). pose proof (Rle_0_sqr (v i)). unfold Rsqr in *. nra.
Qed.
Lemma psd_plus_floor p A B lo : psd p A -> bounded_below p lo B -> bounded_below p lo (fun i j => A i j + B i j).
Proof.
  intros [SA HA] [SB HB]. split; [intros i j Hi Hj; rewrite SA, SB by auto; reflexivity|]. intros v. rewrite qf_plus. specialize (HA v). specialize (HB v). lra.
Qed.
Lemma psd_outer p b : psd p (fun i j => b i * b j).
Proof. split; [intros i j _ _; ring|]. intros v. rewrite qf_outer. apply pow2_ge_0. Qed.
Lemma psd_gram p k B : psd p (rmul k B (rT B)).
Proof.
  split; [intros i j _ _; unfold rmul, rT; apply rsum_ext; intros; ring|]. intros v.
  assert (E : forall k, qf p (rmul k B (rT B)) v = rsum k (fun l => (rdot p (fun i => B i l) v) ^ 2)).
  { clear. induction k as [|k IH].
    - cbn [rsum]. unfold qf, rmul. cbn [rsum]. transitivity (rsum p (fun _ => 0)); [|apply rsum_zero; reflexivity]. apply rsum_ext. intros. apply rsum_zero. intros. ring.
    - cbn [rsum]. rewrite <- IH, <- qf_outer, <- qf_plus. reflexivity. }
  rewrite E. apply rsum_nonneg. intros. apply pow2_ge_0.
Qed.
(** Equal correlations *)
Definition equi (rho : R) : rmat := fun i j => if Nat.eqb i j then 1 else rho.
Lemma equi_floor p rho : 0 <= rho -> bounded_below p (1 - rho) (equi rho).
Proof.
  intros H. assert (B : bounded_below p (1 - rho) (fun i j => rho * 1 * 1 + rdiag (fun _ => 1 - rho) i j)).
  { apply (psd_plus_floor p (fun _ _ => rho * 1 * 1)); [|apply diag_floor; intros; lra]. split; [intros i j _ _; reflexivity|]. intros v.
    rewrite (qf_ext p (fun _ _ => rho * 1 * 1) (fun i j => rho * (1 * 1)) v v) by (try intros i j _ _; try reflexivity; ring). rewrite (qf_scal p rho (fun i j => (fun _ => 1) i * (fun _ => 1) j)), qf_outer.
    apply Rmult_le_pos; [exact H|apply pow2_ge_0]. }
  destruct B as [_ B]. split; [intros i j _ _; unfold equi; destruct (Nat.eqb_spec i j), (Nat.eqb_spec j i); congruence|].
  intros v. rewrite (qf_ext p (equi rho) (fun i j => rho * 1 * 1 + rdiag (fun _ => 1 - rho) i j) v v); [apply B| |reflexivity].
  intros i j _ _. unfold equi, rdiag. destruct (Nat.eqb i j); ring.
Qed.
(** Correlations that decay geometrically *)
Definition geo (rho : R) : rmat := fun i j => rho ^ ((i - j) + (j - i)).
Lemma geo_sym p rho : sym p (geo rho).
Proof. intros i j _ _. unfold geo. f_equal. lia. Qed.
Lemma qf_first p A v : qf (S p) A v = v O * A O O * v O + rsum p (fun j => v O * A O (S j) * v (S j)) + rsum p (fun i => v (S i) * A (S i) O * v O) + qf p (fun i j => A (S i) (S j)) (fun i => v (S i)).
Proof.
  unfold qf. rewrite rsum_S_first. rewrite (rsum_S_first p (fun j => v O * A O j * v j)).
  rewrite (rsum_ext p (fun i => rsum (S p) (fun j => v (S i) * A (S i) j * v j)) (fun i => v (S i) * A (S i) O * v O + rsum p (fun j => v (S i) * A (S i) (S j) * v (S j)))) by (intros; apply rsum_S_first).
  rewrite rsum_plus. ring.
Qed.
Lemma geo_lower rho : 0 <= rho < 1 -> forall p v, (1 - rho) / (1 + rho) * rdot p v v + rho * (rsum p (fun i => rho ^ i * v i)) ^ 2 <= qf p (geo rho) v.
Proof.
  intros H. set (c := (1 - rho) / (1 + rho)). assert (Hc : c * (1 + rho) = 1 - rho) by (unfold c; field; lra).
  induction p as [|p IH]; intros v; [unfold rdot, qf; cbn; lra|].
  rewrite qf_first. unfold rdot. rewrite !rsum_S_first. set (y := fun i => v (S i)). specialize (IH y).
  set (u := rsum p (fun i => rho ^ i * y i)) in *.
  assert (E1 : rsum p (fun j => v O * geo rho O (S j) * v (S j)) = rho * v O * u).
  { unfold u. rewrite <- rsum_scal. apply rsum_ext. intros j _. unfold geo, y. replace (0 - S j + (S j - 0))%nat with (S j) by lia. cbn [pow]. ring. }
  assert (E2 : rsum p (fun i => v (S i) * geo rho (S i) O * v O) = rho * v O * u).
  { unfold u. rewrite <- rsum_scal. apply rsum_ext. intros j _. unfold geo, y. replace (S j - 0 + (0 - S j))%nat with (S j) by lia. cbn [pow]. ring. }
  assert (E3 : qf p (fun i j => geo rho (S i) (S j)) y = qf p (geo rho) y) by (apply qf_ext; [intros i j _ _; unfold geo; f_equal; lia|reflexivity]).
  assert (E4 : rsum p (fun i => rho ^ S i * v (S i)) = rho * u) by (unfold u; rewrite <- rsum_scal; apply rsum_ext; intros; unfold y; cbn [pow]; ring).
  rewrite E1, E2, E3, E4. change (rsum p (fun i => v (S i) * v (S i))) with (rdot p y y).
  replace (geo rho O O) with 1 by (unfold geo; cbn; ring). cbn [pow].
  set (x := v O) in *. set (Q := qf p (geo rho) y) in *. set (n := rdot p y y) in *.
  assert (D : 0 <= rho * c * (x + (1 + rho) * u) ^ 2).
  { apply Rmult_le_pos; [|apply pow2_ge_0]. apply Rmult_le_pos; [lra|]. unfold c. apply Rle_mult_inv_pos; lra. }
  replace (rho * c * (x + (1 + rho) * u) ^ 2) with (rho * c * x ^ 2 + 2 * rho * (c * (1 + rho)) * x * u + rho * (c * (1 + rho)) * (1 + rho) * u ^ 2) in D by ring.
  rewrite Hc in D. assert (Hc2 : rho * c = 1 - c - rho) by lra. rewrite Hc2 in D. nra.
Qed.
Lemma geo_floor p rho : 0 <= rho < 1 -> bounded_below p ((1 - rho) / (1 + rho)) (geo rho).
Proof.
  intros H. split; [apply geo_sym|]. intros v. pose proof (geo_lower rho H p v). assert (0 <= rho * (rsum p (fun i => rho ^ i * v i)) ^ 2) by (apply Rmult_le_pos; [lra|apply pow2_ge_0]). lra.
Qed.

(** ** The model's matrices *)
Lemma equicorr_fin p rho : equicorr (N := NumX) p (Fin rho) = fm p p (equi rho).
Proof. unfold equicorr, fm. apply tab2_ext. intros i j _ _. unfold equi. destruct (Nat.eqb i j); reflexivity. Qed.
Lemma npow_fin rho k : npow (N := NumX) (Fin rho) k = Fin (rho ^ k).
Proof. induction k as [|k IH]; [reflexivity|]. cbn [npow]. rewrite IH. reflexivity. Qed.
Lemma ar1_fin p rho : ar1 (N := NumX) p (Fin rho) = fm p p (geo rho).
Proof. unfold ar1, fm. apply tab2_ext. intros i j _ _. rewrite npow_fin. reflexivity. Qed.
Lemma one_factor_fin p b d : one_factor_cov (N := NumX) (fv p b) (fv p d) = Ok (fm p p (fun i j => b i * b j + rdiag d i j)).
Proof. unfold one_factor_cov. rewrite outer_fin, mdiag_fin, madd_fin. reflexivity. Qed.
Lemma three_factor_fin p k B d : (1 <= p)%nat -> (1 <= k)%nat -> three_factor_cov (N := NumX) (fm p k B) (fv p d) = Ok (fm p p (fun i j => rmul k B (rT B) i j + rdiag d i j)).
Proof. intros Hp Hk. unfold three_factor_cov. rewrite transpose_fin, matmul_fin by auto. cbn [bind]. rewrite mdiag_fin, madd_fin. reflexivity. Qed.
Definition three_levels (s : nat -> R) : nat -> R := fun i => if Nat.ltb i 3 then s i else 2 / 5.
Lemma levels_fin p s : (3 <= p)%nat -> (fv 3 s ++ repeat (@nlit NumX 4 1) (p - 3))%list = fv p (three_levels s).
Proof.
  intros H. rewrite lit_04. unfold fv. replace p with (3 + (p - 3))%nat at 2 by lia. rewrite tab_app, repeat_tab. f_equal.
Qed.
Lemma spiked_cov_fin p Q s : (3 <= p)%nat -> spiked_cov (N := NumX) (fm p p Q) (fv 3 s) p = Ok (fm p p (spec p Q (three_levels s))).
Proof.
  intros H. unfold spiked_cov. destruct (Nat.ltb_spec p 3); [lia|]. rewrite levels_fin by auto. rewrite rows_vmul_fin. cbn [bind]. rewrite transpose_sq_fin, matmul_fin by lia. reflexivity.
Qed.

(** ** The families *)
(** The generator returns a symmetric p x p matrix whose eigenvalues are at least [lo], from every state of the random number generator. *)
Definition generates {G : Rand NumX} (m : D G (mat NumX)) (p : nat) (lo : R) : Prop :=
  total (fun M => exists T, M = fm p p T /\ bounded_below p lo T) m.
Section Families.
Context (G : Rand NumX) (HR : fair G).
Lemma uniform_total lo hi n (l h : NumX) : l = Fin lo -> h = Fin hi -> lo <= hi -> total (fun v => exists x, v = fv n x /\ forall i, (i < n)%nat -> lo <= x i <= hi) (ddraw G (r_uniform G l h n)).
Proof. intros -> -> H. apply total_draw. intros g. apply (fair_uniform G HR); auto. Qed.
Lemma one_factor_gen p : (1 <= p)%nat -> generates (one_factor G p) p (1 / 5).
Proof.
  intros Hp. unfold generates, one_factor.
  refine (total_bind _ _ _ _ (uniform_total (1/2) (3/2) p _ _ _ _ _) _); [rewrite nlit_fin; f_equal; cbn; lra|rewrite nlit_fin; f_equal; cbn; lra|lra|]. intros b0 (b & -> & _).
  refine (total_bind _ _ _ _ (uniform_total (1/5) 1 p _ _ _ _ _) _); [rewrite nlit_fin; f_equal; cbn; lra|reflexivity|lra|]. intros d0 (d & -> & Hd).
  apply total_lift. eexists. split; [apply one_factor_fin|]. eexists. split; [reflexivity|]. apply psd_plus_floor; [apply psd_outer|]. apply diag_floor. intros i Hi. apply Hd, Hi.
Qed.
Lemma three_factor_gen p : (1 <= p)%nat -> generates (three_factor G p) p (1 / 5).
Proof.
  intros Hp. unfold generates, three_factor.
  apply (total_bind (fun M => exists B, M = fm p 3 B)); [apply total_draw; intros g; apply (fair_normal G HR)|]. intros B0 (B & ->).
  refine (total_bind _ _ _ _ (uniform_total (1/5) 1 p _ _ _ _ _) _); [rewrite nlit_fin; f_equal; cbn; lra|reflexivity|lra|]. intros d0 (d & -> & Hd).
  apply total_lift. eexists. split; [apply three_factor_fin; lia|]. eexists. split; [reflexivity|]. apply psd_plus_floor; [apply psd_gram|]. apply diag_floor. intros i Hi. apply Hd, Hi.
Qed.
Lemma diag_gen p : (1 <= p)%nat -> generates (diag_hetero G p) p (1 / 10).
Proof.
  intros Hp. unfold generates, diag_hetero. refine (total_bind _ _ _ _ (uniform_total (1/10) 5 p _ _ _ _ _) _); [rewrite nlit_fin; f_equal; cbn; lra|reflexivity|lra|]. intros d0 (d & -> & Hd).
  apply total_ret. rewrite mdiag_fin. eexists. split; [reflexivity|]. apply diag_floor. intros i Hi. apply Hd, Hi.
Qed.
Lemma spiked_gen_ok np_qr p : qr_lawful np_qr -> (3 <= p)%nat -> generates (spiked_gen G np_qr p) p (2 / 5).
Proof.
  intros HQ Hp. unfold generates, spiked_gen. refine (total_bind _ _ _ _ (uniform_total 8 15 3 _ _ _ _ _) _); [reflexivity|reflexivity|lra|]. intros s0 (s & -> & Hs).
  destruct (Nat.ltb_spec p 3); [lia|]. apply (total_bind (fun M => exists A, M = fm p p A)); [apply total_draw; intros g; apply (fair_normal G HR)|]. intros A0 (A & ->).
  apply (total_bind (fun M => exists Q, M = fm p p Q /\ orth p Q)); [apply total_lift; destruct (HQ p A ltac:(lia)) as (Q & E & HO); eauto|]. intros Q0 (Q & -> & HO).
  apply total_lift. eexists. split; [apply spiked_cov_fin; lia|]. eexists. split; [reflexivity|]. apply spec_bb; [exact HO|]. intros i Hi. unfold three_levels. destruct (Nat.ltb_spec i 3); [|lra].
  specialize (Hs i ltac:(lia)). lra.
Qed.
Lemma lit_06 : @nlit NumX 6 1 = Fin (3 / 5). Proof. rewrite nlit_fin. apply f_equal. cbn. lra. Qed.
Lemma lit_07 : @nlit NumX 7 1 = Fin (7 / 10). Proof. rewrite nlit_fin. apply f_equal. cbn. lra. Qed.
Lemma equicorr_gen p : generates (dret G (equicorr p (nlit 6 1))) p (2 / 5).
Proof. apply total_ret. rewrite lit_06, equicorr_fin. eexists. split; [reflexivity|]. replace (2 / 5) with (1 - 3 / 5) by lra. apply equi_floor. lra. Qed.
Lemma ar1_gen p : generates (dret G (ar1 p (nlit 7 1))) p (3 / 17).
Proof. apply total_ret. rewrite lit_07, ar1_fin. eexists. split; [reflexivity|]. replace (3 / 17) with ((1 - 7 / 10) / (1 + 7 / 10)) by lra. apply geo_floor. lra. Qed.

(** Every family generates, for every draw, a positive definite matrix, and one bounded away from singular by a constant of the family; the
    spiked family needs at least three variables and raises ValueError for fewer. *)
Theorem C102_families np_qr nm fam p : qr_lawful np_qr -> In (nm, fam) (ENSEMBLES G np_qr) -> (1 <= p)%nat ->
  ((nm = "spiked" -> (3 <= p)%nat) -> forall g, exists T g', f_gen fam p g = Ok (fm p p T, g') /\ bounded_below p (floor_of nm) T /\ pd p T) /\
  (nm = "spiked" -> (p < 3)%nat -> forall g, f_gen fam p g = Err ValueError).
Proof.
  intros HQ Hi Hp. split.
  - intros H3 g. assert (HG : generates (f_gen fam p) p (floor_of nm)).
    { destruct Hi as [Hi|[Hi|[Hi|[Hi|[Hi|[Hi|[Hi|[Hi|[]]]]]]]]]; injection Hi as <- <-; cbn [f_gen].
      - apply equicorr_gen.
      - now apply one_factor_gen.
      - now apply three_factor_gen.
      - apply ar1_gen.
      - apply spiked_gen_ok; [exact HQ|now apply H3].
      - now apply diag_gen.
      - now apply one_factor_gen.
      - apply ar1_gen. }
    destruct (HG g) as (M & g' & E & T & -> & HB). exists T, g'. split; [exact E|]. split; [exact HB|]. revert HB. apply bb_pd. unfold floor_of.
    repeat (destruct String.eqb; [lra|]). lra.
  - intros -> H g. destruct Hi as [Hi|[Hi|[Hi|[Hi|[Hi|[Hi|[Hi|[Hi|[]]]]]]]]]; try discriminate Hi; injection Hi as <-; cbn [f_gen]. unfold spiked_gen, dbind, ddraw.
    destruct (Nat.ltb_spec p 3); [destruct (r_uniform G _ _ 3 g); reflexivity|lia].
Qed.
(** Samples of a heavy-tailed family: normal rows for 3/5 of the truth (a positive definite matrix), each divided by the root of its own
    chi-square draw over 5. *)
Theorem C102_heavy_sample T p n g rows g' : pd p T -> TrainModel.sample G (fm p p T) n true g = Ok (rows, g') ->
  exists z g1 chi, r_mvn G (fm p p (fun i j => 3 / 5 * T i j)) n g = Ok (z, g1) /\ pd p (fun i j => 3 / 5 * T i j) /\
    r_chisquare G (Fin 5) n g1 = (chi, g') /\
    forall i row c, nth_error z i = Some row -> nth_error chi i = Some (Fin c) -> 0 < c -> nth_error rows i = Some (map (fun x => @nmul NumX x (Fin (sqrt (5 / c)))) row).
Proof.
  intros HT E. unfold TrainModel.sample in E. apply dbind_ok in E as (z & g1 & E1 & E). apply dbind_ok in E as (chi & g2 & E2 & E). apply dret_ok in E as [-> ->].
  assert (EM : mdivs (mmap (fun x : NumX => nmul x (nofZ 3)) (fm p p T)) (nofZ 5) = fm p p (fun i j => 3 / 5 * T i j)).
  { rewrite (mmap_fin p p _ T (fun i j => T i j * 3)) by (intros; reflexivity). change (@nofZ NumX 5) with (Fin 5). rewrite mdivs_fin by lra. apply fm_ext. intros. lra. }
  rewrite EM in E1. exists z, g1, chi. split; [exact E1|]. split.
  - destruct HT as [S HT]. split; [intros i j Hi Hj; rewrite S by auto; reflexivity|]. intros v Hv. rewrite qf_scal. specialize (HT v Hv). lra.
  - split; [unfold ddraw in E2; injection E2 as E2; exact E2|]. clear. intros i row c. unfold scale_rows. revert chi i. induction z as [|r0 z IH]; intros [|c0 chi] [|i] H1 H2 Hc; cbn in H1, H2 |- *; try discriminate.
    + injection H1 as ->. injection H2 as ->. f_equal. apply map_ext. intros x. cbn. unfold Reqb. destruct (Req_EM_T c 0); [lra|]. cbn. unfold Rltb.
      assert (0 < 5 / c) by (apply Rdiv_lt_0_compat; lra). destruct (Rlt_dec (5 / c) 0); [lra|]. reflexivity.
    + now apply IH.
Qed.
(** The truths of the bake-off's scenarios. *)
Theorem C102_scenario_truths d n n_test g scs g' nm train test truth : (1 <= d)%nat -> build_scenarios G d n n_test g = Ok (scs, g') -> In (nm, train, test, truth) scs ->
  let p := if String.eqb nm "high_dim_low_n" then 40%nat else d in exists T, truth = fm p p T /\ bounded_below p (3 / 20) T /\ pd p T.
Proof.
  intros Hd E Hi.
  assert (X : let p := if String.eqb nm "high_dim_low_n" then 40%nat else d in exists T, truth = fm p p T /\ bounded_below p (3 / 20) T).
  { assert (GE : forall lo p (m : D G (mat NumX)) g M g', generates m p lo -> 3 / 20 <= lo -> m g = Ok (M, g') -> exists T, M = fm p p T /\ bounded_below p (3 / 20) T).
    { intros lo p m ga M gb HG Hlo Hm. destruct (HG ga) as (M' & gc & E' & T & -> & HB). rewrite E' in Hm. injection Hm as <- <-. exists T. split; [reflexivity|exact (bb_le p lo (3 / 20) T Hlo HB)]. }
    unfold build_scenarios in E. apply dbind_ok in E as (cov1 & g1 & F1 & E). apply dbind_ok in E as (s1 & g2 & E1 & E). apply dbind_ok in E as (s2 & g3 & E2 & E). apply dbind_ok in E as (s3 & g4 & E3 & E).
    apply dbind_ok in E as (covh & g5 & F2 & E). apply dbind_ok in E as (s4 & g6 & E4 & E). apply dbind_ok in E as (ra & g7 & E5 & E). apply dbind_ok in E as (rb & g8 & E6 & E). apply dbind_ok in E as (rt & g9 & E7 & E).
    apply dbind_ok in E as (covc & g10 & F3 & E). apply dbind_ok in E as (tr & g11 & E8 & E). apply dbind_ok in E as (u & g12 & _ & E). cbv zeta in E. apply dbind_ok in E as (z & g13 & _ & E).
    apply dbind_ok in E as (te & g14 & E9 & E). apply dbind_ok in E as (cov3 & g15 & F4 & E). apply dbind_ok in E as (s7 & g16 & E10 & E). apply dret_ok in E as [-> _].
    apply drawn_ok in E1 as (? & ? & ? & ? & ? & -> & _). apply drawn_ok in E2 as (? & ? & ? & ? & ? & -> & _). apply drawn_ok in E3 as (? & ? & ? & ? & ? & -> & _).
    apply drawn_ok in E4 as (? & ? & ? & ? & ? & -> & _). apply drawn_ok in E10 as (? & ? & ? & ? & ? & -> & _).
    destruct Hi as [Hi|[Hi|[Hi|[Hi|[Hi|[Hi|[Hi|[]]]]]]]]; injection Hi as <- <- <- <-; cbn [String.eqb Ascii.eqb Bool.eqb].
    - apply (GE (2 / 5) d (dret G (equicorr d (nlit 6 1))) g _ g); [apply equicorr_gen|lra|reflexivity].
    - refine (GE (1 / 5) d _ _ _ _ (one_factor_gen d Hd) _ F1). lra.
    - apply (GE (3 / 17) d (dret G (ar1 d (nlit 7 1))) g _ g); [apply ar1_gen|lra|reflexivity].
    - refine (GE (1 / 5) 40%nat _ _ _ _ (one_factor_gen 40 _) _ F2); [lia|lra].
    - exists (equi (17 / 20)). assert (L85 : @nlit NumX 85 2 = Fin (17 / 20)) by (rewrite nlit_fin; f_equal; cbn; lra). split; [etransitivity; [|apply equicorr_fin]; rewrite <- L85; reflexivity|]. replace (3 / 20) with (1 - 17 / 20) by lra. apply equi_floor. lra.
    - refine (GE (1 / 5) d _ _ _ _ (one_factor_gen d Hd) _ F3). lra.
    - refine (GE (1 / 5) d _ _ _ _ (three_factor_gen d Hd) _ F4). lra. }
  cbv zeta in *. destruct X as (T & E1 & HB). exists T. split; [exact E1|]. split; [exact HB|]. revert HB. apply bb_pd. lra.
Qed.
End Families.

(** The eight families have distinct names; exactly the two called heavy are sampled with heavy tails, and they draw their truths as the
    family of normal rows does. *)
Theorem C102_heavy_families (G : Rand NumX) np_qr : NoDup (map fst (ENSEMBLES G np_qr)) /\ length (ENSEMBLES G np_qr) = 8%nat /\
  (forall nm fam, In (nm, fam) (ENSEMBLES G np_qr) -> (f_heavy fam = true <-> nm = "one_factor_heavy"%string \/ nm = "ar1_heavy"%string)) /\
  (forall h n, In (h, n) [("one_factor_heavy", "one_factor"); ("ar1_heavy", "ar1_toeplitz")]%string ->
     exists fh fn, In (h, fh) (ENSEMBLES G np_qr) /\ In (n, fn) (ENSEMBLES G np_qr) /\ forall p s, f_gen fh p s = f_gen fn p s).
Proof.
  split; [repeat constructor; cbn; intuition discriminate|]. split; [reflexivity|]. split.
  - intros nm fam Hi. cbn in Hi. decompose [or] Hi; try contradiction; match goal with H : (_, _) = (_, _) |- _ => injection H as <- <- end; cbn; intuition discriminate.
  - intros h n [E|[E|[]]]; injection E as <- <-; cbn; do 2 eexists; (split; [|split]); eauto 12.
Qed.

(** A random number generator and a QR factorisation that meet the assumptions. *)
Example C102_fair_generator : exists (G : Rand NumX) np_qr, fair G /\ qr_lawful np_qr.
Proof.
  exists (mkRand NumX unit (fun _ g => (0%nat, g)) (fun _ g => (0%nat, g)) (fun lo hi n g => (repeat lo n, g)) (fun n g => (repeat n0 n, g)) (fun n m g => (fm n m (fun i j => INR (i + j)), g)) (fun c n g => Ok (c, g)) (fun df n g => (repeat df n, g))),
    (fun A => Ok (fm (length A) (length A) rI)). split; [constructor|].
  - intros lo hi n g H. exists (fun _ => lo). split; [cbn; apply repeat_tab|]. intros; lra.
  - intros n m g. eexists. reflexivity.
  - intros p A Hp. exists rI. split; [f_equal; change (length (fm p p A)) with (nrows (fm p p A)); now rewrite fm_nrows|]. split; intros i j Hi Hj; unfold rT;
      [rewrite (rmul_ext p p p _ rI rI rI ltac:(intros x y _ _; unfold rI; now rewrite Nat.eqb_sym) (meq_refl _ _ _)) by auto; now apply rmul_I_l|rewrite (rmul_I_l p) by auto; unfold rI; now rewrite Nat.eqb_sym].
Qed.
(** Two variables with correlation 7/10. *)
Example C102_ar1_two : pd 2 (geo (7 / 10)) /\ geo (7 / 10) 0%nat 1%nat = 7 / 10.
Proof. split; [apply (bb_pd 2 ((1 - 7 / 10) / (1 + 7 / 10))); [lra|apply geo_floor; lra]|unfold geo; cbn; lra]. Qed.

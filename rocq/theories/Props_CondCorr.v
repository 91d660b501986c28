(** * C100: how large correlation_ of a ConditionalCovariance can get *)
From Coq Require Import Reals ZArith String List Lia Lra Psatz Arith Bool.
From Verif Require Import Num Numpy PyVal LinalgModel StateModel BaseModel Estimators RegistryModel
  Spec ListLemmas BaseProofs RMat Fin RealSpec RunFin EwaReal RunAvg EmpFacts Props_Emp MomentReal Props_Moment
  ConditionalModel ConditionalSpec ConditionalProofs Props_Cond CondRealSpec CondReal Props_CondReal CondObjModel CondObjSpec.
Import ListNotations.
Local Open Scope R_scope.

Lemma drd_diag v F i : 0 <= F i i -> drd v F i i = F i i / (F i i + 1 / 10 ^ 12) * Rmax (v i) (1 / 10 ^ 12).
Proof.
  intros H. unfold drd. rewrite sqrt_square by assumption. rewrite sqrt_sqrt; [reflexivity|].
  pose proof (Rmax_r (v i) (1 / 10 ^ 12)). lra.
Qed.
Lemma drd_diag_nonneg v F i : 0 <= F i i -> 0 <= drd v F i i.
Proof.
  intros H. rewrite drd_diag by assumption. pose proof (Rmax_r (v i) (1 / 10 ^ 12)). apply Rmult_le_pos; [|lra].
  apply Rmult_le_pos; [assumption|]. left. apply Rinv_0_lt_compat. lra.
Qed.
(** correlation_ of the composition, entry by entry *)
Theorem C100_correlation_closed_form {Cv C : EstClass NumX} (vol : inst Cv) (corr : inst C) mu va p F xs :
  tracks vol mu va -> models p corr F -> xs <> [] ->
  let V := vol_of_estimator vol in
  let H := drd (fun i => va (col i xs)) (F (std_residuals mu va xs)) in
  exists c, cond_partial_fit V corr (cond_new V) (In2 (map (fv p) xs)) = (c, Ok tt) /\
    cond_correlation c = Ok (fm p p (fun i j => H i j / (sqrt (H i i * H j j) + 1 / 10 ^ 12))).
Proof.
  intros H1 H2 Hx V H. destruct (C48_closed_form vol corr mu va p F xs H1 H2 Hx) as (c & E1 & _ & _ & E4).
  exists c. split; [exact E1|]. unfold cond_correlation. fold V in E4. rewrite E4. cbn [bind]. apply cov_to_corrcoef_fin.
  intros i Hi. apply drd_diag_nonneg.
  assert (Hr : std_residuals mu va xs <> []) by (destruct xs; [contradiction|discriminate]).
  destruct (H2 _ Hr) as (o & _ & _ & _ & K). now apply K.
Qed.
(** The entry is at most sqrt(1 + 1e-12 / m) in absolute value, where m bounds the correlation model's variances (those of the
    standardised residuals) from below. *)
Lemma ratio_bound x y e m : 0 < m -> 0 <= e -> m <= x * x -> m <= y * y -> 0 < x -> 0 < y ->
  (x * x + e) * (y * y + e) <= (1 + e / m) * ((x * y + e) * (x * y + e)).
Proof.
  intros Hm He Hx Hy Px Py.
  replace ((x * x + e) * (y * y + e)) with ((x * y + e) * (x * y + e) + e * ((x - y) * (x - y))) by ring.
  replace ((1 + e / m) * ((x * y + e) * (x * y + e))) with ((x * y + e) * (x * y + e) + e * (/ m * ((x * y + e) * (x * y + e)))) by (unfold Rdiv; ring).
  apply Rplus_le_compat_l. apply Rmult_le_compat_l; [assumption|].
  apply (Rmult_le_reg_l m); [assumption|]. replace (m * (/ m * ((x * y + e) * (x * y + e)))) with ((x * y + e) * (x * y + e)) by (field; lra).
  assert (0 < x * y) by nra.
  apply Rle_trans with (x * y * (x * y)); [|apply Rmult_le_compat; nra].
  destruct (Rle_dec x y).
  - apply Rle_trans with (m * (y * y)); [apply Rmult_le_compat_l; [lra|nra]|]. replace (x * y * (x * y)) with (x * x * (y * y)) by ring. apply Rmult_le_compat_r; nra.
  - apply Rle_trans with (m * (x * x)); [apply Rmult_le_compat_l; [lra|nra]|]. replace (x * y * (x * y)) with (y * y * (x * x)) by ring. apply Rmult_le_compat_r; nra.
Qed.
Lemma recorr_bound p v F m i j : psd p F -> 0 < m -> (forall i, (i < p)%nat -> m <= F i i) -> (i < p)%nat -> (j < p)%nat ->
  let H := drd v F in Rabs (H i j / (sqrt (H i i * H j j) + 1 / 10 ^ 12)) <= sqrt (1 + 1 / 10 ^ 12 / m).
Proof.
  intros HF Hm Hd Hi Hj H. set (e := 1 / 10 ^ 12) in *. assert (He : 0 < e) by (unfold e; lra).
  pose proof (Hd i Hi) as Di. pose proof (Hd j Hj) as Dj.
  set (x := sqrt (F i i)). set (y := sqrt (F j j)).
  assert (Hx : 0 < x) by (apply sqrt_lt_R0; lra). assert (Hy : 0 < y) by (apply sqrt_lt_R0; lra).
  assert (Xx : x * x = F i i) by (apply sqrt_sqrt; lra). assert (Yy : y * y = F j j) by (apply sqrt_sqrt; lra).
  set (di := sqrt (Rmax (v i) e)). set (dj := sqrt (Rmax (v j) e)).
  assert (Pi : 0 < di) by (apply sqrt_lt_R0; pose proof (Rmax_r (v i) e); lra). assert (Pj : 0 < dj) by (apply sqrt_lt_R0; pose proof (Rmax_r (v j) e); lra).
  assert (Hij : H i j = F i j / (x * y + e) * (di * dj)).
  { unfold H, drd. fold e. fold di dj. rewrite <- Xx, <- Yy. replace (x * x * (y * y)) with (x * y * (x * y)) by ring. rewrite sqrt_square by nra. reflexivity. }
  assert (Hii : H i i = x * x / (x * x + e) * (di * di)) by (unfold H, drd; fold e; fold di; rewrite <- Xx, sqrt_square by nra; reflexivity).
  assert (Hjj : H j j = y * y / (y * y + e) * (dj * dj)) by (unfold H, drd; fold e; fold dj; rewrite <- Yy, sqrt_square by nra; reflexivity).
  assert (Bij : Rabs (F i j) <= x * y).
  { replace (x * y) with (sqrt (F i i * F j j)) by (unfold x, y; apply sqrt_mult; lra). rewrite <- (sqrt_Rsqr_abs (F i j)). apply sqrt_le_1; [apply Rle_0_sqr|nra|]. unfold Rsqr. now apply (psd_cauchy p). }
  set (g := sqrt ((x * x + e) * (y * y + e))).
  assert (Gp : 0 < g) by (apply sqrt_lt_R0; apply Rmult_lt_0_compat; nra).
  assert (Gs : g * g = (x * x + e) * (y * y + e)) by (apply sqrt_sqrt; apply Rmult_le_pos; nra).
  assert (Sq : sqrt (H i i * H j j) = x * y * (di * dj) / g).
  { rewrite Hii, Hjj. replace (x * x / (x * x + e) * (di * di) * (y * y / (y * y + e) * (dj * dj))) with ((x * y * (di * dj) / g) * (x * y * (di * dj) / g)).
    - apply sqrt_square. apply Rmult_le_pos; [|left; now apply Rinv_0_lt_compat]. repeat apply Rmult_le_pos; lra.
    - replace ((x * y * (di * dj) / g) * (x * y * (di * dj) / g)) with (x * y * (di * dj) * (x * y * (di * dj)) / (g * g)) by (field; lra). rewrite Gs. field. split; nra. }
  rewrite Sq, Hij. set (T := x * y * (di * dj) / g). assert (Tp : 0 < T) by (apply Rdiv_lt_0_compat; [repeat apply Rmult_lt_0_compat; lra|assumption]).
  unfold Rdiv at 1. rewrite Rabs_mult. rewrite (Rabs_pos_eq (/ (T + e))) by (left; apply Rinv_0_lt_compat; lra).
  assert (B : Rabs (F i j / (x * y + e) * (di * dj)) <= T * sqrt (1 + e / m)).
  { rewrite Rabs_mult, (Rabs_pos_eq (di * dj)) by nra. unfold Rdiv at 1. rewrite Rabs_mult, (Rabs_pos_eq (/ (x * y + e))) by (left; apply Rinv_0_lt_compat; nra).
    assert (K : g <= sqrt (1 + e / m) * (x * y + e)).
    { unfold g. assert (0 <= e / m) by (apply Rmult_le_pos; [lra|left; now apply Rinv_0_lt_compat]).
      rewrite <- (sqrt_square (x * y + e)) at 1 by nra. assert (Q0 : 0 <= 1 + e / m) by lra. pose proof (Rle_0_sqr (x * y + e)) as Q1. unfold Rsqr in Q1. rewrite <- sqrt_mult by assumption. apply sqrt_le_1; [apply Rmult_le_pos; nra|now apply Rmult_le_pos|].
      apply ratio_bound; lra. }
    apply Rle_trans with (x * y * / (x * y + e) * (di * dj)).
    { apply Rmult_le_compat_r; [nra|]. apply Rmult_le_compat_r; [left; apply Rinv_0_lt_compat; nra|assumption]. }
    unfold T. replace (x * y * / (x * y + e) * (di * dj)) with (x * y * (di * dj) * / (x * y + e)) by ring.
    replace (x * y * (di * dj) / g * sqrt (1 + e / m)) with (x * y * (di * dj) * (/ g * sqrt (1 + e / m))) by (unfold Rdiv; ring). apply Rmult_le_compat_l; [apply Rmult_le_pos; nra|].
    apply (Rmult_le_reg_l (g * (x * y + e))); [apply Rmult_lt_0_compat; nra|].
    replace (g * (x * y + e) * / (x * y + e)) with g by (field; nra). replace (g * (x * y + e) * (/ g * sqrt (1 + e / m))) with (sqrt (1 + e / m) * (x * y + e)); [exact K|].
    field. lra. }
  apply Rle_trans with (T * sqrt (1 + e / m) * / (T + e)); [apply Rmult_le_compat_r; [left; apply Rinv_0_lt_compat; lra|exact B]|].
  pose proof (sqrt_pos (1 + e / m)) as Sp. apply (Rmult_le_reg_r (T + e)); [lra|]. rewrite Rmult_assoc, Rinv_l by lra. nra.
Qed.
Theorem C100_correlation_bounded {Cv C : EstClass NumX} (vol : inst Cv) (corr : inst C) mu va p F xs m :
  tracks vol mu va -> models p corr F -> xs <> [] -> psd p (F (std_residuals mu va xs)) ->
  0 < m -> (forall i, (i < p)%nat -> m <= F (std_residuals mu va xs) i i) ->
  let V := vol_of_estimator vol in
  exists c K, cond_partial_fit V corr (cond_new V) (In2 (map (fv p) xs)) = (c, Ok tt) /\ cond_correlation c = Ok (fm p p K) /\
    (forall i j, (i < p)%nat -> (j < p)%nat -> K i j = K j i /\ Rabs (K i j) <= sqrt (1 + 1 / 10 ^ 12 / m)) /\
    (forall i, (i < p)%nat -> 0 <= K i i < 1).
Proof.
  intros H1 H2 Hx HF Hm Hd V. destruct (C100_correlation_closed_form vol corr mu va p F xs H1 H2 Hx) as (c & E1 & E2).
  exists c. eexists. split; [exact E1|]. split; [exact E2|]. set (G := F (std_residuals mu va xs)) in *. split.
  - intros i j Hi Hj. split; [|now apply (recorr_bound p)].
    assert (S : drd (fun i => va (col i xs)) G i j = drd (fun i => va (col i xs)) G j i).
    { unfold drd. destruct HF as [S _]. rewrite (S i j Hi Hj), (Rmult_comm (G i i)). rewrite (Rmult_comm (sqrt (Rmax (va (col i xs)) _))). reflexivity. }
    rewrite S. now rewrite (Rmult_comm (drd _ _ i i)).
  - intros i Hi. pose proof (drd_diag_nonneg (fun i => va (col i xs)) G i ltac:(specialize (Hd i Hi); lra)) as K. rewrite sqrt_square by assumption.
    set (h := drd _ _ i i) in *. split; [apply Rmult_le_pos; [lra|left; apply Rinv_0_lt_compat; lra]|]. apply (Rmult_lt_reg_r (h + 1 / 10 ^ 12)); [lra|].
    unfold Rdiv at 1. rewrite Rmult_assoc, Rinv_l by lra. lra.
Qed.

(** It does exceed 1: the default composition after the two rows (0, 0) and (2e-6, 2e8). *)
Theorem C100_correlation_exceeds_one r : 0 < r <= 1 ->
  exists c K, ewa_pair_fit 2 r r [fun _ => 0; fun i => if Nat.eqb i 0 then 2 / 10 ^ 6 else 2 * 10 ^ 8] c /\
    cond_correlation c = Ok (fm 2 2 K) /\ 1 < K O 1%nat.
Proof.
  intros Hr. set (z := (fun _ : nat => 0) : obs). set (w := (fun i : nat => if Nat.eqb i 0 then 2 / 10 ^ 6 else 2 * 10 ^ 8) : obs).
  destruct (C100_correlation_closed_form (new (C := Ewa) (EWA r false)) (new (C := Ewa) (EWA r false)) (ewa_mu r) (ewa_va r) 2 (ewa_cov r (burn_len r)) [z; w])
    as (c & E1 & E2).
  { apply ewa_tracks; [lra|reflexivity]. }
  { apply ewa_models; [lra|reflexivity]. }
  { discriminate. }
  exists c. eexists. split; [exact E1|]. split; [exact E2|].
  set (es := std_residuals (ewa_mu r) (ewa_va r) [z; w]).
  assert (Es : es = [std_residual (ewa_mu r) (ewa_va r) [] z; std_residual (ewa_mu r) (ewa_va r) [z] w]) by reflexivity.
  assert (Sd : sqrt (1 / 10 ^ 12) = 1 / 10 ^ 6) by (replace (1 / 10 ^ 12) with (1 / 10 ^ 6 * (1 / 10 ^ 6)) by lra; apply sqrt_square; lra).
  assert (EF : forall i j, ewa_cov r (burn_len r) es i j = (10 ^ 6 / 2 * w i) * (10 ^ 6 / 2 * w j)).
  { intros i j. rewrite Es, ewa_cov_two. rewrite !(proj1 (C48_ewa_residuals r [] z _)), !(proj2 (C48_ewa_residuals r [z] w _)) by discriminate.
    rewrite !ewa_mean_one, !ewa_cov_one. rewrite Rmax_right by lra. rewrite Sd. unfold z. field. }
  assert (Va : forall i, ewa_va r (col i [z; w]) = w i / 2 * (w i / 2)).
  { intros i. rewrite ewa_va_col, ewa_cov_two. unfold z. field. }
  set (F := ewa_cov r (burn_len r) es) in *. set (e := 1 / 10 ^ 12).
  assert (W0 : w O = 2 / 10 ^ 6) by reflexivity. assert (W1 : w 1%nat = 2 * 10 ^ 8) by reflexivity.
  assert (F00 : F O O = 1) by (rewrite EF, W0; lra). assert (F11 : F 1%nat 1%nat = 10 ^ 14 * 10 ^ 14) by (rewrite EF, W1; lra).
  assert (F01 : F O 1%nat = 10 ^ 14) by (rewrite EF, W0, W1; lra).
  assert (V0 : sqrt (Rmax (ewa_va r (col O [z; w])) e) = 1 / 10 ^ 6).
  { rewrite Va, W0, Rmax_left by (unfold e; lra). replace (2 / 10 ^ 6 / 2 * (2 / 10 ^ 6 / 2)) with (1 / 10 ^ 6 * (1 / 10 ^ 6)) by lra. apply sqrt_square. lra. }
  assert (V1 : sqrt (Rmax (ewa_va r (col 1 [z; w])) e) = 10 ^ 8).
  { rewrite Va, W1, Rmax_left by (unfold e; lra). replace (2 * 10 ^ 8 / 2 * (2 * 10 ^ 8 / 2)) with (10 ^ 8 * 10 ^ 8) by lra. apply sqrt_square. lra. }
  set (H := drd (fun i => ewa_va r (col i [z; w])) F).
  assert (H01 : H O 1%nat = 10 ^ 14 / (10 ^ 14 + e) * 100).
  { unfold H, drd. fold e. rewrite V0, V1, F00, F11, F01, Rmult_1_l, sqrt_square by lra. lra. }
  assert (H00 : H O O = 1 / (1 + e) * (1 / 10 ^ 12)).
  { unfold H, drd. fold e. rewrite V0, F00, Rmult_1_l, sqrt_1. f_equal. unfold e. lra. }
  assert (H11 : H 1%nat 1%nat = 10 ^ 14 * 10 ^ 14 / (10 ^ 14 * 10 ^ 14 + e) * 10 ^ 16).
  { unfold H, drd. fold e. rewrite V1, F11, sqrt_square by lra. f_equal. lra. }
  cbn beta. fold H. rewrite H01.
  assert (Sq : sqrt (H O O * H 1%nat 1%nat) <= 10 ^ 14 / (10 ^ 14 + e) * 100 * (1 - e / 8)).
  { rewrite <- (sqrt_square (10 ^ 14 / (10 ^ 14 + e) * 100 * (1 - e / 8))) by (unfold e; lra).
    apply sqrt_le_1; [rewrite H00, H11; unfold e; lra|unfold e; lra|]. rewrite H00, H11. unfold e. lra. }
  apply (Rmult_lt_reg_r (sqrt (H O O * H 1%nat 1%nat) + e)); [pose proof (sqrt_pos (H O O * H 1%nat 1%nat)); unfold e; lra|].
  unfold Rdiv at 1. rewrite Rmult_assoc, Rinv_l; [|pose proof (sqrt_pos (H O O * H 1%nat 1%nat)); unfold e; lra].
  rewrite Rmult_1_l, Rmult_1_r. apply Rle_lt_trans with (10 ^ 14 / (10 ^ 14 + e) * 100 * (1 - e / 8) + e); [lra|]. unfold e. lra.
Qed.

(** The hypotheses of [C100_correlation_bounded] are met by the default composition. *)
Example C100_bound_met r a b : 0 < r <= 1 -> a <> 0 -> b <> 0 ->
  let xs := [fun _ => 0; fun i => if Nat.eqb i 0 then a else b] in
  let F := ewa_cov r (burn_len r) (std_residuals (ewa_mu r) (ewa_va r) xs) in
  tracks (new (C := Ewa) (EWA r false)) (ewa_mu r) (ewa_va r) /\ models 2 (new (C := Ewa) (EWA r false)) (ewa_cov r (burn_len r)) /\
  psd 2 F /\ exists m, 0 < m /\ forall i, (i < 2)%nat -> m <= F i i.
Proof.
  intros Hr Ha Hb xs F. split; [apply ewa_tracks; [lra|reflexivity]|]. split; [apply ewa_models; [lra|reflexivity]|].
  set (z := (fun _ : nat => 0) : obs). set (w := (fun i : nat => if Nat.eqb i 0 then a else b) : obs).
  assert (Sd : sqrt (1 / 10 ^ 12) = 1 / 10 ^ 6) by (replace (1 / 10 ^ 12) with (1 / 10 ^ 6 * (1 / 10 ^ 6)) by lra; apply sqrt_square; lra).
  assert (EF : forall i j, F i j = (10 ^ 6 / 2 * w i) * (10 ^ 6 / 2 * w j)).
  { intros i j. unfold F. change (std_residuals (ewa_mu r) (ewa_va r) xs) with [std_residual (ewa_mu r) (ewa_va r) [] z; std_residual (ewa_mu r) (ewa_va r) [z] w].
    rewrite ewa_cov_two. rewrite !(proj1 (C48_ewa_residuals r [] z _)), !(proj2 (C48_ewa_residuals r [z] w _)) by discriminate.
    rewrite !ewa_mean_one, !ewa_cov_one. rewrite Rmax_right by lra. rewrite Sd. unfold z. field. }
  split.
  - apply (psd_ext 2 (fun i j => (10 ^ 6 / 2 * w i) * (10 ^ 6 / 2 * w j))); [intros i j _ _; symmetry; apply EF|apply psd_outer].
  - assert (0 < a * a) by (destruct (Rlt_dec 0 a); nra). assert (0 < b * b) by (destruct (Rlt_dec 0 b); nra).
    exists (Rmin (a * a) (b * b)). split; [now apply Rmin_glb_lt|]. intros i Hi. rewrite EF. unfold w. destruct i as [|[|i]]; [| |lia]; cbn [Nat.eqb].
    + apply Rle_trans with (a * a); [apply Rmin_l|]. nra.
    + apply Rle_trans with (b * b); [apply Rmin_r|]. nra.
Qed.
(** A concrete pickled instance: the default composition after those two rows, and its copy, which reports 2 samples. *)
Example C100_pickle_met r   : 0 < r <= 1 ->
  let t := new (C := Ewa) (EWA r false) in
  let cs := [CPartialFit Ewa Ewa (In2 (map (fv 2) [fun _ => 0; fun i => if Nat.eqb i 0 then 1 else 3]))] in
  chistory 2 cs /\ co_n_samples (fst (crun (co_new t t) cs)) = 2%nat.
Proof.
  intros Hr t cs. split; [constructor; [|constructor]; cbn; constructor; [reflexivity|constructor; [reflexivity|constructor]]|].
  destruct (C48_ewa_ewa 2 r r [fun _ => 0; fun i => if Nat.eqb i 0 then 1 else 3] Hr Hr) as (c & E & En & _); [discriminate|].
  unfold cs. cbn [crun do_ccall]. unfold co_partial_fit. cbn [co_new co_vol co_corr co_cond]. unfold ewa_pair_fit in E. fold t in E.
  match goal with |- context [cond_partial_fit ?V ?a ?b ?x] => assert (E' : cond_partial_fit V a b x = (c, Ok tt)) by exact E; rewrite E' end. exact En.
Qed.

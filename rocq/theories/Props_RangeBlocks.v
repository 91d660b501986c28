(** * C86: which values of SchurCovariance's gamma are safe *)
From Coq Require Import Reals ZArith String List Lia Lra Psatz Arith Bool.
From Verif Require Import Num Numpy PyVal LinalgModel StateModel BaseModel Estimators RegistryModel Spec ListLemmas BaseProofs
  RMat LinSpec Fin RealSpec RunFin EwaReal RunAvg EmpFacts Props_Emp Props_CondReal Spectral MatAlg Det Contracts LinalgReal SpikedModel Props_SpikedTruth
  BlockSpec BlockGeom BlockReal BlockRun BlockRun2 Props_Block.
Import ListNotations.
Local Open Scope string_scope.
Local Open Scope R_scope.

Lemma damped_mix p k g A v : qf p (damped p k g A) v = g * qf p A v + (1 - g) * qf p (damped p k 0 A) v.
Proof.
  unfold qf. rewrite <- !rsum_scal, <- rsum_plus. apply rsum_ext. intros i _. rewrite <- !rsum_scal, <- rsum_plus. apply rsum_ext. intros j _.
  unfold damped. destruct (Nat.eqb _ _); ring.
Qed.
(** the square of a sum of m terms is at most m times the sum of the squares, in the seminorm of a positive semidefinite matrix *)
Lemma qf_sum p S m (V : nat -> nat -> R) : psd p S -> qf p S (fun i => rsum m (fun b => V b i)) <= INR m * rsum m (fun b => qf p S (V b)).
Proof.
  intros [HS PS]. induction m as [|m IH].
  - cbn [rsum INR]. rewrite Rmult_0_l. right. unfold qf. apply rsum_zero. intros i _. apply rsum_zero. intros j _. ring.
  - cbn [rsum]. destruct m as [|m].
    + cbn [rsum]. simpl INR. rewrite Rplus_0_l, Rmult_1_l. right. apply qf_ext; [intros i j _ _; reflexivity|intros i _; ring].
    + set (n := Datatypes.S m) in *. set (u := fun i => rsum n (fun b => V b i)) in *. set (w := V n).
      pose proof (pos_INR m) as Pm. assert (Hn : 1 <= INR n) by (unfold n; rewrite S_INR; lra). rewrite (S_INR n).
      pose proof (PS (fun i => u i + - INR n * w i)) as Q. rewrite (qf_add p S u w (- INR n) HS) in Q.
      assert (E : qf p S (fun i => u i + V n i) = qf p S u + 2 * 1 * rdot p w (rapp p S u) + 1 * 1 * qf p S w).
      { rewrite <- (qf_add p S u w 1 HS). apply qf_ext; [intros i j _ _; reflexivity|intros i _; unfold w; ring]. }
      match goal with |- ?l <= _ => change l with (qf p S (fun i => u i + V n i)) end. rewrite E. fold w. set (bil := rdot p w (rapp p S u)) in *. set (qu := qf p S u) in *. set (qw := qf p S w) in *. set (s := rsum n _) in *.
      apply Rmult_le_reg_l with (INR n); [lra|]. nra.
Qed.
(** ** Safe *)
Lemma psd_damped_wide p k g A : (2 <= k)%nat -> - (1 / (INR k - 1)) <= g <= 1 -> psd p A -> psd p (damped p k g A).
Proof.
  intros Hk Hg PA. split; [apply damped_sym; apply PA|]. intros v. assert (K : 2 <= INR k) by (replace 2 with (INR 2) by (simpl; lra); now apply le_INR).
  rewrite damped_mix. assert (Q0 : 0 <= qf p A v) by apply PA. pose proof (block_qf p k A v ltac:(lia)) as B.
  set (V := fun b i => if Nat.eqb (block_of p k i) b then v i else 0).
  assert (EV : qf p A v = qf p A (fun i => rsum k (fun b => V b i))).
  { apply qf_ext; [intros i j _ _; reflexivity|]. intros i Hi. unfold V. destruct (block_of_spec p k i ltac:(lia) Hi) as [Hb _].
    rewrite (rsum_ext k _ (fun b => if Nat.eqb b (block_of p k i) then v i else 0)); [now rewrite rsum_delta|]. intros b _. now rewrite Nat.eqb_sym. }
  pose proof (qf_sum p A k V PA) as C. rewrite <- EV in C. change (rsum k (fun b => qf p A (V b))) with (rsum k (fun b => qf p A (fun i => if Nat.eqb (block_of p k i) b then v i else 0))) in C.
  rewrite <- B in C. set (D := qf p (damped p k 0 A) v) in *. set (q := qf p A v) in *.
  assert (D0 : 0 <= D) by nra. destruct (Rle_lt_dec 0 g); [nra|].
  assert (G : - 1 <= g * (INR k - 1)). { replace (-1) with (- (1 / (INR k - 1)) * (INR k - 1)) by (field; lra). apply Rmult_le_compat_r; lra. }
  assert (g * (INR k * D) <= g * q) by nra. assert (0 <= (1 + g * (INR k - 1)) * D) by (apply Rmult_le_pos; lra). nra.
Qed.
(** ** Unsafe: data at one variable of every block *)
Definition mark (p k : nat) (c : nat -> R) : nat -> R := fun i => if Nat.eqb i (block_start p k (block_of p k i)) then c (block_of p k i) else 0.
Lemma mark_sum p k c : (1 <= k <= p)%nat -> rsum p (mark p k c) = rsum k c.
Proof.
  intros Hk. rewrite (rsum_ext p _ (fun i => rsum k (fun b => if Nat.eqb i (block_start p k b) then c b else 0))).
  - rewrite rsum_swap. apply rsum_ext. intros b Hb. rewrite (rsum_delta p (block_start p k b) (fun _ => c b)); [reflexivity|].
    pose proof (start_lt p k b Hk). pose proof (start_le_p p k (S b) ltac:(lia) ltac:(lia)). lia.
  - intros i Hi. destruct (block_of_spec p k i ltac:(lia) Hi) as [Hb Hr]. unfold mark.
    rewrite (rsum_ext k _ (fun b => if Nat.eqb b (block_of p k i) then (if Nat.eqb i (block_start p k (block_of p k i)) then c (block_of p k i) else 0) else 0)).
    + rewrite (rsum_delta k (block_of p k i) (fun _ => _)) by exact Hb. reflexivity.
    + intros b Hb'. destruct (Nat.eqb_spec b (block_of p k i)) as [->|N]; [reflexivity|].
      destruct (Nat.eqb_spec i (block_start p k b)) as [E|_]; [|reflexivity]. exfalso. apply N. symmetry. apply block_of_in; [exact Hb'|]. rewrite <- E. pose proof (start_lt p k b Hk). lia.
Qed.
Lemma mark_mult p k c d i : mark p k c i * mark p k d i = mark p k (fun b => c b * d b) i.
Proof. unfold mark. destruct (Nat.eqb _ _); ring. Qed.
Lemma mark_dot p k c d : (1 <= k <= p)%nat -> rdot p (mark p k c) (mark p k d) = rsum k (fun b => c b * d b).
Proof. intros Hk. rewrite <- (mark_sum p k _ Hk). unfold rdot. apply rsum_ext. intros i _. apply mark_mult. Qed.
Lemma outer_qf p w v : qf p (fun i j => w i * w j) v = rdot p w v * rdot p w v.
Proof.
  unfold qf, rdot. rewrite <- rsum_scal_r. apply rsum_ext. intros i _. rewrite <- rsum_scal. apply rsum_ext. intros j _. ring.
Qed.
(** the marked data has covariance t^2 1 1' between the marked variables *)
Lemma damped_mark p k g t c : (1 <= k <= p)%nat ->
  qf p (damped p k g (fun i j => (t * mark p k (fun _ => 1) i) * (t * mark p k (fun _ => 1) j))) (mark p k c) =
  t ^ 2 * (g * (rsum k c * rsum k c) + (1 - g) * rsum k (fun b => c b * c b)).
Proof.
  intros Hk. set (w := fun i => t * mark p k (fun _ => 1) i). rewrite damped_mix, block_qf by lia. rewrite outer_qf.
  assert (W : forall d, rdot p w (mark p k d) = t * rsum k d).
  { intros d. rewrite <- (mark_sum p k d Hk). unfold rdot, w. rewrite <- rsum_scal. apply rsum_ext. intros i _. rewrite Rmult_assoc, mark_mult. unfold mark. destruct (Nat.eqb _ _); ring. }
  rewrite W. rewrite (rsum_ext k (fun b => qf p _ _) (fun b => t ^ 2 * (c b * c b))).
  - rewrite rsum_scal. ring.
  - intros b Hb. rewrite outer_qf.
    match goal with |- ?l = _ => change l with (rdot p w (fun i => if Nat.eqb (block_of p k i) b then mark p k c i else 0) * rdot p w (fun i => if Nat.eqb (block_of p k i) b then mark p k c i else 0)) end.
    assert (E : rdot p w (fun i => if Nat.eqb (block_of p k i) b then mark p k c i else 0) = t * c b); [|rewrite E; ring].
    transitivity (rdot p w (mark p k (fun a => if Nat.eqb a b then c a else 0))).
    + unfold rdot. apply rsum_ext. intros i _. unfold mark. destruct (Nat.eqb (block_of p k i) b), (Nat.eqb i _); ring.
    + rewrite W. f_equal. rewrite (rsum_ext k _ (fun a => if Nat.eqb a b then c b else 0)); [now rewrite (rsum_delta k b (fun _ => c b))|]. intros a _. destruct (Nat.eqb_spec a b) as [->|]; reflexivity.
Qed.
(** ** C86 *)
(** what SchurCovariance reports on a stream, and how far (squared Frobenius distance) that is from the recency-weighted covariance
    with its between-block entries multiplied by gamma *)
Definition schur_reports (L : LinAlg NumX) (p : nat) (r : R) (n_blocks : Z) (gamma : R) (interp : string) (diff : bool) rows xs (B : rmat) (gap : R) : Prop :=
  exists o, fitted_on (C := Schur L) (SCH r n_blocks gamma interp diff) rows o /\ covariance_ o = Ok (fm p p B) /\
    gap = fro2 p (fun i j => B i j - damped p (blocks n_blocks p) gamma (ewa_cov r (burn_len r) xs) i j).
(** gamma in [-1/(m-1), 1], m the number of blocks: on every stream the gap is at most sqrt(p) 1e-8 *)
Theorem C86_schur_gamma_safe L p r n_blocks gamma interp diff rows xs :
  lawful L -> (1 <= p)%nat -> 0 < r <= 1 -> (1 <= n_blocks)%Z -> interp <> "geodesic" -> (2 <= blocks n_blocks p)%nat ->
  - (1 / (INR (blocks n_blocks p) - 1)) <= gamma <= 1 -> observes p diff rows xs -> xs <> [] ->
  exists B gap, schur_reports L p r n_blocks gamma interp diff rows xs B gap /\ gap <= INR p * (1 / 10 ^ 8) ^ 2.
Proof.
  intros HL Hp Hr Hn Hi Hk Hg Ho Hx. destruct (C43_schur_linear L p r n_blocks gamma interp diff rows xs HL Hp ltac:(lra) Hn Hi Ho Hx) as (o & B & E1 & _ & E3 & [_ E4] & _).
  set (D := damped _ _ _ _) in *. assert (PD : psd p D) by (apply psd_damped_wide; [exact Hk|exact Hg|apply psd_ewa_cov; lra]).
  exists B. eexists. split; [exists o; split; [exact E1|split; [exact E3|reflexivity]]|]. fold D.
  assert (SD : meq p p (symm D) D) by (apply symm_id; apply PD).
  specialize (E4 (fun i j => D i j + e8 * rI i j)).
  assert (BB : bounded_below p e8 (fun i j => D i j + e8 * rI i j)).
  { destruct PD as [S P]. split; [intros i j Ai Aj; rewrite (S i j Ai Aj); unfold rI; now rewrite Nat.eqb_sym|]. intros v.
    assert (Q : qf p (fun i j => D i j + e8 * rI i j) v = qf p D v + e8 * rdot p v v).
    { rewrite qf_plus, qf_scal. replace (qf p rI v) with (rdot p v v); [reflexivity|]. rewrite qf_app. apply rdot_ext; [intros i _; reflexivity|]. intros i Ai. symmetry. now apply rapp_I. } rewrite Q. specialize (P v). lra. }
  specialize (E4 BB).
  assert (L1 : fro2 p (fun i j => B i j - symm D i j) = fro2 p (fun i j => B i j - D i j)) by (unfold fro2; apply rsum_ext; intros i Ai; apply rsum_ext; intros j Aj; now rewrite (SD i j Ai Aj)).
  assert (L2 : fro2 p (fun i j => D i j + e8 * rI i j - symm D i j) = INR p * (1 / 10 ^ 8) ^ 2).
  { unfold fro2. rewrite (rsum_ext p _ (fun _ => (1 / 10 ^ 8) ^ 2)); [rewrite rsum_const; ring|]. intros i Ai.
    rewrite (rsum_ext p _ (fun j => if Nat.eqb j i then (1 / 10 ^ 8) ^ 2 else 0)); [now rewrite (rsum_delta p i (fun _ => _))|].
    intros j Aj. rewrite (SD i j Ai Aj). unfold rI. rewrite (Nat.eqb_sym j i). unfold e8. destruct (Nat.eqb i j); ring. }
  rewrite L1, L2 in E4. exact E4.
Qed.
(** any other gamma: no error, and on some streams of two rows the repair moves the estimate by more than any given amount *)
Theorem C86_schur_gamma_unsafe L p r n_blocks gamma interp K :
  lawful L -> (1 <= p)%nat -> 0 < r <= 1 -> (1 <= n_blocks)%Z -> interp <> "geodesic" -> (2 <= blocks n_blocks p)%nat ->
  ~ (- (1 / (INR (blocks n_blocks p) - 1)) <= gamma <= 1) ->
  exists x y B gap, schur_reports L p r n_blocks gamma interp false (map (fv p) [x; y]) [x; y] B gap /\ K < gap.
Proof.
  intros HL Hp Hr Hn Hi Hk Hg. set (k := blocks n_blocks p) in *. pose proof (blocks_range n_blocks p Hp) as Rk. fold k in Rk.
  assert (Kk : (1 <= k <= p)%nat) by lia. assert (K2 : 2 <= INR k) by (replace 2 with (INR 2) by (simpl; lra); now apply le_INR).
  (* a direction in which the damped covariance is negative *)
  assert (W : exists c N, 0 < N /\ rdot p (mark p k c) (mark p k c) = N /\ exists s, s < 0 /\ forall t, 
     qf p (damped p k gamma (fun i j => (t * mark p k (fun _ => 1) i) * (t * mark p k (fun _ => 1) j))) (mark p k c) = t ^ 2 * s).
  { destruct (Rlt_le_dec 1 gamma) as [G|G].
    - exists (fun b => if Nat.eqb b 0 then 1 else if Nat.eqb b 1 then -1 else 0), 2.
      assert (S1 : rsum k (fun b => if Nat.eqb b 0 then 1 else if Nat.eqb b 1 then -1 else 0) = 0).
      { rewrite (rsum_ext k _ (fun b => (if Nat.eqb b 0 then 1 else 0) + (if Nat.eqb b 1 then -1 else 0))); [rewrite rsum_plus, (rsum_delta k 0%nat (fun _ => 1)), (rsum_delta k 1%nat (fun _ => -1)) by lia; ring|].
        intros [|[|b]] _; cbn [Nat.eqb]; ring. }
      assert (S2 : rsum k (fun b => (if Nat.eqb b 0 then 1 else if Nat.eqb b 1 then -1 else 0) * (if Nat.eqb b 0 then 1 else if Nat.eqb b 1 then -1 else 0)) = 2).
      { rewrite (rsum_ext k _ (fun b => (if Nat.eqb b 0 then 1 else 0) + (if Nat.eqb b 1 then 1 else 0))); [rewrite rsum_plus, (rsum_delta k 0%nat (fun _ => 1)), (rsum_delta k 1%nat (fun _ => 1)) by lia; ring|].
        intros [|[|b]] _; cbn [Nat.eqb]; ring. }
      split; [lra|]. split; [rewrite mark_dot by exact Kk; exact S2|]. exists ((1 - gamma) * 2). split; [lra|].
      intros t. rewrite damped_mark by exact Kk. rewrite S1, S2. ring.
    - assert (G1 : gamma < - (1 / (INR k - 1))) by lra.
      assert (S1 : rsum k (fun _ => 1) = INR k) by (rewrite rsum_const; ring).
      exists (fun _ => 1), (INR k). split; [lra|]. split; [rewrite mark_dot by exact Kk; rewrite (rsum_ext k _ (fun _ => 1)) by (intros; ring); exact S1|].
      exists (INR k * (1 + gamma * (INR k - 1))). split.
      + assert (gamma * (INR k - 1) < -1). { replace (-1) with (- (1 / (INR k - 1)) * (INR k - 1)) by (field; lra). apply Rmult_lt_compat_r; lra. } nra.
      + intros t. rewrite damped_mark by exact Kk. rewrite S1, (rsum_ext k (fun b => 1 * 1) (fun _ => 1)) by (intros; ring). rewrite S1. ring. }
  destruct W as (c & N & HN & EN & s & Hs & Q). set (v := mark p k c) in *.
  set (t := 1 + (Rabs K + 1) * N / - s). set (w := (fun i => t * mark p k (fun _ => 1) i) : obs).
  set (xs := [(fun i => - w i) : obs; w]).
  assert (ES : forall i j, ewa_cov r (burn_len r) xs i j = w i * w j) by (intros i j; unfold xs; rewrite ewa_cov_two; lra).
  destruct (C43_schur_linear L p r n_blocks gamma interp false (map (fv p) xs) xs HL Hp ltac:(lra) Hn Hi (observes_plain p xs) ltac:(discriminate)) as (o & B & E1 & _ & E3 & _ & PB & _).
  set (D := damped p k gamma (ewa_cov r (burn_len r) xs)). exists (fun i => - w i), w, B. eexists. split; [exists o; split; [exact E1|split; [exact E3|reflexivity]]|]. fold k. fold xs. fold D.
  assert (QD : qf p D v = t ^ 2 * s). { rewrite <- Q. apply qf_ext; [|reflexivity]. intros i j _ _. unfold D, damped. rewrite ES. reflexivity. }
  assert (QB : 0 <= qf p B v) by (apply (pd_psd p B PB)).
  set (G := fun i j => B i j - D i j). assert (QG : qf p G v = qf p B v - qf p D v).
  { unfold qf, G. rewrite <- rsum_minus. apply rsum_ext. intros i _. rewrite <- rsum_minus. apply rsum_ext. intros j _. ring. }
  pose proof (qf_fro p G v) as F. rewrite EN in F. change (fro_sq p G) with (fro2 p G) in F. change (fro2 p (fun i j => B i j - D i j)) with (fro2 p G).
  assert (F0 : 0 <= fro2 p G) by apply (fro_sq_nonneg p G). pose proof (sqrt_pos (fro2 p G)) as SP. pose proof (sqrt_sqrt _ F0) as SS. set (f := sqrt (fro2 p G)) in *.
  pose proof (Rle_abs (qf p G v)) as RA.
  assert (Ht : (Rabs K + 1) * N / - s <= t) by (unfold t; lra). assert (T1 : 1 <= t). { unfold t. assert (0 <= (Rabs K + 1) * N / - s); [|lra]. apply Rle_mult_inv_pos; [apply Rmult_le_pos; [pose proof (Rabs_pos K); lra|lra]|lra]. }
  assert (H1 : (Rabs K + 1) * N <= t * - s). { apply (Rmult_le_compat_r (- s)) in Ht; [|lra]. unfold Rdiv in Ht. rewrite (Rmult_assoc _ (/ - s)), Rinv_l, Rmult_1_r in Ht by lra. exact Ht. }
  assert (H2 : t * - s <= t ^ 2 * - s) by (apply Rmult_le_compat_r; [lra|]; nra).
  assert (H3 : (Rabs K + 1) * N <= f * N) by lra. apply Rmult_le_reg_r in H3; [|exact HN]. pose proof (Rle_abs K). pose proof (Rabs_pos K). rewrite <- SS. nra.
Qed.
Example C86_gamma_witness : (2 <= blocks 2 3)%nat /\ - (1 / (INR (blocks 2 3) - 1)) <= 1 / 2 <= 1 /\ ~ (- (1 / (INR (blocks 2 3) - 1)) <= 3 / 2 <= 1).
Proof. replace (blocks 2 3) with 2%nat by reflexivity. simpl INR. split; [lia|]. split; lra. Qed.

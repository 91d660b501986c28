(** * C111 for SchurCovariance and BlockCovariance *)
From Coq Require Import Reals ZArith String List Lia Lra Psatz Arith Bool.
From Verif Require Import Num Numpy PyVal LinalgModel StateModel BaseModel Estimators RegistryModel Spec ListLemmas BaseProofs
  RMat LinSpec Fin RealSpec RunFin EwaReal RunAvg EmpFacts MomentReal Props_Emp Props_Moment Spectral MatAlg Contracts LinalgReal BlockSpec SchurCondSpec BlockReal BlockRun BlockRun2 Props_Block FloatEwa Props_Bias Props_Consistency.
Import ListNotations.
Local Open Scope string_scope.
Local Open Scope R_scope.

(** SchurCovariance with linear interpolation, and BlockCovariance (gamma = 0), of white noise: as long as the damped covariance is well conditioned (so that no eigenvalue is floored) the expected estimate is C111's multiple of the true covariance with its cross-block entries multiplied by gamma. *)
Lemma blocks_mean {Om} (oms : list Om) w p N X mu Sig r nb k gamma (L : LinAlg NumX) n : lawful L -> (1 <= p)%nat -> 0 < r <= 1 -> (1 <= nb)%nat ->
  probability oms w -> white_noise p N oms w X mu Sig -> (1 <= n <= N)%nat ->
  (forall o, In o oms -> bounded_below p e8 (damped p k gamma (ewa_cov r nb (draw X n o)))) ->
  forall i j, (i < p)%nat -> (j < p)%nat ->
    expect oms w (fun o => mpd L p (damped p k gamma (ewa_cov r nb (draw X n o))) i j) = bias r nb n * damped p k gamma Sig i j.
Proof.
  intros HL Hp Hr Hb HP HW Hn Hf i j Hi Hj. destruct (moments oms w p N X mu Sig HW r nb Hr Hb n Hn) as (_ & _ & _ & A4).
  rewrite (E_ext_in oms w _ (fun o => (if Nat.eqb (block_of p k i) (block_of p k j) then 1 else gamma) * ewa_cov r nb (draw X n o) i j)).
  - rewrite E_scal, A4 by auto. unfold damped. destruct (Nat.eqb _ _); ring.
  - intros o Io. set (D := damped p k gamma (ewa_cov r nb (draw X n o))). pose proof (Hf o Io) as HD. fold D in HD.
    assert (SD : meq p p (symm D) D) by (apply symm_id; apply HD).
    assert (M : meq p p (mpd L p D) D). { eapply meq_trans; [apply mpd_fix; auto|exact SD]. apply (bb_ext p e8 D); auto. now apply meq_sym. }
    rewrite (M i j Hi Hj). unfold D, damped. destruct (Nat.eqb _ _); ring.
Qed.
Theorem C111_blocks {Om} (oms : list Om) w p N X mu Sig r n_blocks gamma interp diff (L : LinAlg NumX) (rows : Om -> list (vec NumX)) n :
  lawful L -> (1 <= p)%nat -> 0 < r <= 1 -> (1 <= n_blocks)%Z -> interp <> "geodesic" ->
  probability oms w -> white_noise p N oms w X mu Sig -> (1 <= n <= N)%nat -> (forall o, observes p diff (rows o) (draw X n o)) ->
  (forall o, In o oms -> bounded_below p e8 (damped p (blocks n_blocks p) gamma (ewa_cov r (burn_len r) (draw X n o)))) ->
  exists (V : Om -> rmat),
    (forall o, exists e, fitted_on (C := Schur L) (SCH r n_blocks gamma interp diff) (rows o) e /\ covariance_ e = Ok (fm p p (V o))) /\
    (gamma = 0 -> forall o, exists e, fitted_on (C := Block L) (BLK r n_blocks diff) (rows o) e /\ covariance_ e = Ok (fm p p (V o))) /\
    (forall i j, (i < p)%nat -> (j < p)%nat -> expect oms w (fun o => V o i j) =
       bias r (burn_len r) n * damped p (blocks n_blocks p) gamma Sig i j).
Proof.
  intros HL Hp Hr Hnb Hi HP HW Hn Ho Hf. pose proof (burn_len_bounds r) as Hb.
  assert (Hx : forall o, draw X n o <> []) by (intros o E; pose proof (draw_length X n o) as Q; rewrite E in Q; cbn in Q; lia).
  exists (fun o => mpd L p (damped p (blocks n_blocks p) gamma (ewa_cov r (burn_len r) (draw X n o)))). split; [|split].
  - intros o. destruct (Schur_linear L HL p r n_blocks gamma interp diff (rows o) (draw X n o) Hp ltac:(lra) Hnb Hi (Ho o) (Hx o)) as (e & E1 & _ & _ & E4). exists e. auto.
  - intros -> o. destruct (Block_run L HL p r n_blocks diff (rows o) (draw X n o) Hp ltac:(lra) (Ho o) (Hx o)) as (e & B & E1 & _ & _ & _ & E4 & _). exists e. auto.
  - apply (blocks_mean oms w p N X mu Sig); auto; lia.
Qed.
(** the premise is met: two uncorrelated rows (a, b), (-b, a) never coincide *)
Example C111_blocks_witness :
  let oms := [(2, 1); (-1, 2); (-2, -1); (1, -2)] in let w := fun _ : R * R => / 4 in
  let X := fun (t : nat) (o : R * R) (_ : nat) => match t with O => fst o | _ => snd o end in
  probability oms w /\ white_noise 1 2 oms w X (fun _ => 0) (fun _ _ => 5 / 2) /\
  (forall o, In o oms -> bounded_below 1 e8 (damped 1 (blocks 1 1) 0 (ewa_cov (1 / 10) 20 (draw X 2 o)))).
Proof.
  intros oms w X. split; [|split].
  - split; [intros; unfold w; lra|]. unfold expect, oms, w. cbn [map lsum]. lra.
  - split.
    + intros t i Ht _. unfold expect, oms, w, X. destruct t; cbn [map lsum fst snd]; lra.
    + intros s t i j Hs Ht _ _. unfold expect, oms, w, X. destruct s as [|[|]], t as [|[|]]; try lia; cbn [map lsum fst snd Nat.eqb]; lra.
  - intros o Ho. assert (V : ewa_cov (1 / 10) 20 (draw X 2 o) 0%nat 0%nat = (fst o - snd o) * (fst o - snd o) / 4).
    { rewrite ewa_cov_burning by (rewrite draw_length; lia). unfold pcov_of, draw, X, mean_of. cbn. field. }
    assert (Q : 1 / 4 <= ewa_cov (1 / 10) 20 (draw X 2 o) 0%nat 0%nat) by (rewrite V; destruct Ho as [<-|[<-|[<-|[<-|[]]]]]; cbn [fst snd]; lra).
    split; [intros i j Hi Hj; now replace i with 0%nat by lia; replace j with 0%nat by lia|].
    intros v. unfold qf, rdot, damped. cbn [rsum Nat.eqb]. assert (E : e8 <= 1 / 4) by (unfold e8; lra).
    set (c := ewa_cov (1 / 10) 20 (draw X 2 o) 0%nat 0%nat) in *. rewrite Nat.eqb_refl. unfold rdot. cbn [rsum]. assert (0 <= v 0%nat * v 0%nat) by apply Rle_0_sqr. nra.
Qed.
(** The sample size SchurConditional credits itself with (its gamma_ and ridges are computed from it) is the one at which a plain mean is as noisy as the running mean: exactly during the burn-in, in the limit after it. *)
Theorem C111_effective_sample r : 0 < r <= 2 / 3 ->
  (forall n, (2 <= n <= burn_len r)%nat -> INR n <= (2 - r) / r -> effective_n r n * noise r (burn_len r) n = 1) /\
  Un_cv (fun n => effective_n r n * noise r (burn_len r) n) 1.
Proof.
  intros Hr. pose proof (burn_len_bounds r) as Hb. assert (Q : 2 <= (2 - r) / r) by (apply Rmult_le_reg_r with r; [lra|]; unfold Rdiv; rewrite Rmult_assoc, Rinv_l by lra; lra). split.
  - intros n Hn Hq. unfold effective_n, noise. rewrite (proj2 (Nat.leb_le n _)) by lia. rewrite Rmin_left by exact Hq. pose proof (le_INR 2 n ltac:(lia)) as N2. cbn [INR] in N2. rewrite Rmax_right by lra. field. lra.
  - destruct (C111_limits r (burn_len r) ltac:(lra) ltac:(lia)) as (L & _). replace 1 with (((2 - r) / r) * (r / (2 - r))) by (field; lra).
    apply CV_mult; [|exact L]. intros e He. exists (Z.to_nat (up ((2 - r) / r))). intros n Hn. unfold effective_n, R_dist.
    assert (G : (2 - r) / r <= INR n). { pose proof (archimed ((2 - r) / r)) as [A _]. apply Rle_trans with (IZR (up ((2 - r) / r))); [lra|]. rewrite INR_IZR_INZ. apply IZR_le. lia. }
    rewrite Rmin_right by exact G. rewrite Rmax_right by exact Q. rewrite Rminus_eq_0, Rabs_R0. exact He.
Qed.
Example C111_effective_sample_witness : effective_n (1 / 20) 10 = 10.
Proof. unfold effective_n. cbn [INR]. rewrite Rmin_left by lra. rewrite Rmax_right; lra. Qed.

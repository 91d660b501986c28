(** * C41: make_pos_def never magnifies a difference; C85: the repaired and shrunk estimators forget as fast as Ewa *)
From Coq Require Import Reals ZArith String List Lia Lra Psatz Arith Bool.
From Verif Require Import Num Numpy PyVal LinalgModel StateModel BaseModel Estimators RegistryModel Spec ListLemmas BaseProofs
  RMat LinSpec Fin RealSpec RunFin EwaReal RunAvg EmpFacts Props_Emp ShrinkReal Spectral MatAlg Det Contracts LinalgReal Props_Linalg
  BlockSpec BlockGeom BlockReal BlockRun BlockRun2 Props_Block Props_Forget.
Import ListNotations.
Local Open Scope string_scope.
Local Open Scope R_scope.

Lemma Rabs_both x b : Rabs x <= b -> - b <= x <= b.
Proof. unfold Rabs. destruct (Rcase_abs x); lra. Qed.
(** ** The nearest point of a convex set *)
Definition fip (p : nat) (A B : rmat) : R := rsum p (fun i => rsum p (fun j => A i j * B i j)).
Lemma fip_lin p A B C a b : fip p (fun i j => a * A i j + b * B i j) C = a * fip p A C + b * fip p B C.
Proof. unfold fip. rewrite <- !rsum_scal, <- rsum_plus. apply rsum_ext. intros i _. rewrite <- !rsum_scal, <- rsum_plus. apply rsum_ext. intros j _. ring. Qed.
Lemma fro2_lin p A B t : fro2 p (fun i j => A i j + t * B i j) = fro2 p A + 2 * t * fip p A B + t * t * fro2 p B.
Proof.
  unfold fro2, fip. rewrite <- !rsum_scal, <- !rsum_plus. apply rsum_ext. intros i _. rewrite <- !rsum_scal, <- !rsum_plus. apply rsum_ext. intros j _. ring.
Qed.
Lemma fro2_nonneg p A : 0 <= fro2 p A.
Proof. apply rsum_nonneg. intros. apply rsum_nonneg. intros. apply Rle_0_sqr. Qed.
Lemma fro2_eq p A B : meq p p A B -> fro2 p A = fro2 p B.
Proof. intros H. unfold fro2. apply rsum_ext. intros i Hi. apply rsum_ext. intros j Hj. now rewrite (H i j). Qed.
Lemma bb_convex p lo A B t : 0 <= t <= 1 -> bounded_below p lo A -> bounded_below p lo B -> bounded_below p lo (fun i j => A i j + t * (B i j - A i j)).
Proof.
  intros Ht [SA HA] [SB HB]. split; [intros i j Hi Hj; rewrite (SA i j Hi Hj), (SB i j Hi Hj); reflexivity|]. intros v.
  assert (E : qf p (fun i j => A i j + t * (B i j - A i j)) v = (1 - t) * qf p A v + t * qf p B v).
  { unfold qf. rewrite <- !rsum_scal, <- rsum_plus. apply rsum_ext. intros i _. rewrite <- !rsum_scal, <- rsum_plus. apply rsum_ext. intros j _. ring. }
  rewrite E. specialize (HA v). specialize (HB v). nra.
Qed.
Lemma nearest_angle p lo A B C : bounded_below p lo B -> bounded_below p lo C ->
  (forall C, bounded_below p lo C -> fro2 p (fun i j => B i j - A i j) <= fro2 p (fun i j => C i j - A i j)) ->
  0 <= fip p (fun i j => B i j - A i j) (fun i j => C i j - B i j).
Proof.
  intros HB HC HN. set (X := fun i j => B i j - A i j). set (Y := fun i j => C i j - B i j). set (f := fip p X Y). set (F := fro2 p Y).
  assert (F0 : 0 <= F) by apply fro2_nonneg.
  assert (K : forall t, 0 <= t <= 1 -> 0 <= 2 * t * f + t * t * F).
  { intros t Ht. specialize (HN _ (bb_convex p lo B C t Ht HB HC)). cbv beta in HN.
    rewrite (fro2_eq p (fun i j => B i j + t * (C i j - B i j) - A i j) (fun i j => X i j + t * Y i j)) in HN by (intros i j _ _; unfold X, Y; ring).
    rewrite fro2_lin in HN. fold X in HN. fold f F in HN. lra. }
  destruct (Rle_lt_dec 0 f) as [|N]; [assumption|exfalso].
  set (t := Rmin 1 (- f / (F + 1))).
  assert (T1 : t <= 1) by apply Rmin_l. assert (T2 : t <= - f / (F + 1)) by apply Rmin_r.
  assert (T0 : 0 < t) by (unfold t; apply Rmin_glb_lt; [lra|apply Rdiv_lt_0_compat; lra]).
  specialize (K t ltac:(lra)). apply (Rmult_le_compat_r (F + 1)) in T2; [|lra]. unfold Rdiv in T2. rewrite Rmult_assoc, Rinv_l, Rmult_1_r in T2 by lra.
  assert (0 <= 2 * f + t * F) by (apply Rmult_le_reg_l with t; [exact T0|]; lra). nra.
Qed.
Lemma nearest_nonexpansive p lo A A' B B' : bounded_below p lo B -> bounded_below p lo B' ->
  (forall C, bounded_below p lo C -> fro2 p (fun i j => B i j - A i j) <= fro2 p (fun i j => C i j - A i j)) ->
  (forall C, bounded_below p lo C -> fro2 p (fun i j => B' i j - A' i j) <= fro2 p (fun i j => C i j - A' i j)) ->
  fro2 p (fun i j => B i j - B' i j) <= fro2 p (fun i j => A i j - A' i j).
Proof.
  intros HB HB' HN HN'. pose proof (nearest_angle p lo A B B' HB HB' HN) as K1. pose proof (nearest_angle p lo A' B' B HB' HB HN') as K2.
  set (X := fun i j => A i j - A' i j). set (Y := fun i j => B i j - B' i j).
  assert (E : fip p (fun i j => B i j - A i j) (fun i j => B' i j - B i j) + fip p (fun i j => B' i j - A' i j) (fun i j => B i j - B' i j) = fip p X Y - fro2 p Y).
  { unfold fip, fro2, X, Y. rewrite <- rsum_plus, <- rsum_minus. apply rsum_ext. intros i _. rewrite <- rsum_plus, <- rsum_minus. apply rsum_ext. intros j _. ring. }
  assert (S : 0 <= fro2 p (fun i j => X i j + -1 * Y i j)) by apply fro2_nonneg. rewrite fro2_lin in S. lra.
Qed.
Lemma symm_shrinks p A A' : fro2 p (fun i j => symm A i j - symm A' i j) <= fro2 p (fun i j => A i j - A' i j).
Proof.
  set (X := fun i j => A i j - A' i j).
  assert (E : fro2 p X = rsum p (fun i => rsum p (fun j => (X i j * X i j + X j i * X j i) / 2))).
  { assert (T : fro2 p X = rsum p (fun i => rsum p (fun j => X j i * X j i))) by (unfold fro2; apply rsum_swap).
    assert (D : rsum p (fun i => rsum p (fun j => (X i j * X i j + X j i * X j i) / 2)) = / 2 * (fro2 p X + rsum p (fun i => rsum p (fun j => X j i * X j i)))).
    { unfold fro2. rewrite <- rsum_plus, <- rsum_scal. apply rsum_ext. intros i _. rewrite <- rsum_plus, <- rsum_scal. apply rsum_ext. intros j _. lra. }
    rewrite D, <- T. lra. }
  rewrite E. unfold fro2. apply rsum_le. intros i _. apply rsum_le. intros j _. unfold symm, X.
  set (a := A i j - A' i j). set (b := A j i - A' j i). replace ((A i j + A j i) / 2 - (A' i j + A' j i) / 2) with ((a + b) / 2) by (unfold a, b; lra).
  pose proof (Rle_0_sqr (a - b)) as Q. unfold Rsqr in Q. nra.
Qed.
(** ** C41 *)
(** two matrices are at most as far apart (Frobenius) after the repair as before, even with two different LAPACKs *)
Theorem C41_make_pos_def_nonexpansive L L' p A A' : lawful L -> lawful L' -> (1 <= p)%nat ->
  exists B B', make_pos_def L (fm p p A) = Ok (fm p p B) /\ make_pos_def L' (fm p p A') = Ok (fm p p B') /\
    fro2 p (fun i j => B i j - B' i j) <= fro2 p (fun i j => A i j - A' i j).
Proof.
  intros HL HL' Hp. destruct (C41_make_pos_def L p A HL Hp) as (B & E & H1 & _ & H2). destruct (C41_make_pos_def L' p A' HL' Hp) as (B' & E' & H1' & _ & H2').
  exists B, B'. split; [exact E|]. split; [exact E'|]. eapply Rle_trans; [|apply symm_shrinks]. now apply (nearest_nonexpansive p e8).
Qed.
(** so the result does not depend on which LAPACK computed it *)
Corollary C41_any_lapack L L' p A : lawful L -> lawful L' -> (1 <= p)%nat -> make_pos_def L (fm p p A) = make_pos_def L' (fm p p A).
Proof.
  intros HL HL' Hp. destruct (C41_make_pos_def_nonexpansive L L' p A A HL HL' Hp) as (B & B' & E & E' & H). rewrite E, E'. f_equal. apply fm_meq.
  assert (Z : fro2 p (fun i j => A i j - A i j) = 0) by (unfold fro2; apply rsum_zero; intros; apply rsum_zero; intros; ring). rewrite Z in H.
  intros i j Hi Hj. assert (T : (B i j - B' i j) * (B i j - B' i j) <= fro2 p (fun i j => B i j - B' i j)).
  { unfold fro2. eapply Rle_trans; [apply (rsum_ge_term p (fun j => (B i j - B' i j) * (B i j - B' i j)) j); [intros; apply Rle_0_sqr|exact Hj]|].
    apply (rsum_ge_term p (fun i => rsum p (fun j => (B i j - B' i j) * (B i j - B' i j))) i); [|exact Hi]. intros. apply rsum_nonneg. intros. apply Rle_0_sqr. }
  pose proof (Rle_0_sqr (B i j - B' i j)) as Q. unfold Rsqr in Q. assert ((B i j - B' i j) * (B i j - B' i j) = 0) by lra. apply Rmult_integral in H0. lra.
Qed.
Lemma entry_le_fro p X c i j : (i < p)%nat -> (j < p)%nat -> 0 <= c -> fro2 p X <= c * c -> Rabs (X i j) <= c.
Proof.
  intros Hi Hj Hc H.
  assert (T : X i j * X i j <= fro2 p X).
  { unfold fro2. eapply Rle_trans; [apply (rsum_ge_term p (fun j => X i j * X i j) j); [intros; apply Rle_0_sqr|exact Hj]|].
    apply (rsum_ge_term p (fun i => rsum p (fun j => X i j * X i j)) i); [|exact Hi]. intros. apply rsum_nonneg. intros. apply Rle_0_sqr. }
  apply Rsqr_incr_0_var; [|exact Hc]. rewrite <- Rsqr_abs. unfold Rsqr. lra.
Qed.
Lemma fro_le_entries p X c : 0 <= c -> (forall i j, (i < p)%nat -> (j < p)%nat -> Rabs (X i j) <= c) -> fro2 p X <= (INR p * c) * (INR p * c).
Proof.
  intros Hc H. unfold fro2. replace (INR p * c * (INR p * c)) with (rsum p (fun _ => rsum p (fun _ => c * c))) by (rewrite !rsum_const; ring).
  apply rsum_le. intros i Hi. apply rsum_le. intros j Hj. specialize (H i j Hi Hj). apply Rabs_both in H. nra.
Qed.
(** ** C85 *)
Definition bound85 (B r : R) (k : nat) : R := 20 * (B * B) * (1 - r) ^ (k - 1).
Lemma ewa_cov_forget p r xs ys zs B i j : 0 < r <= 1 -> (burn_len r <= length xs)%nat -> (burn_len r <= length ys)%nat -> zs <> [] ->
  bounded_rows p B (xs ++ zs) -> bounded_rows p B (ys ++ zs) -> 0 <= B -> (i < p)%nat -> (j < p)%nat ->
  Rabs (ewa_cov r (burn_len r) (xs ++ zs) i j - ewa_cov r (burn_len r) (ys ++ zs) i j) <= bound85 B r (length zs).
Proof.
  intros Hr Hx Hy Hz HB HB' H0 Hi Hj.
  destruct (C85_ewa_forgets p r false (map (fv p) (xs ++ zs)) (map (fv p) (ys ++ zs)) xs ys zs B Hr Hx Hy Hz (observes_plain p _) (observes_plain p _) HB HB' H0)
    as (o & o' & m & m' & S & S' & E1 & E2 & _ & _ & E5 & E6 & _ & E8).
  assert (N : forall l : list obs, (l ++ zs)%list <> []) by (intros l E; apply app_eq_nil in E; tauto).
  destruct (Ewa_run p r false (map (fv p) (xs ++ zs)) (xs ++ zs) ltac:(lra) (observes_plain p _) (N _)) as (o1 & F1 & _ & _ & F4 & _).
  destruct (Ewa_run p r false (map (fv p) (ys ++ zs)) (ys ++ zs) ltac:(lra) (observes_plain p _) (N _)) as (o2 & G1 & _ & _ & G4 & _).
  unfold fitted_on, EWA in E1, E2. rewrite F1 in E1. rewrite G1 in E2. injection E1 as <-. injection E2 as <-. rewrite F4 in E5. rewrite G4 in E6. injection E5 as E5. injection E6 as E6.
  rewrite (fm_inj p p _ _ i j E5 Hi Hj), (fm_inj p p _ _ i j E6 Hi Hj). now apply E8.
Qed.
Lemma bound85_nonneg B r k : 0 < r <= 1 -> 0 <= B -> 0 <= bound85 B r k.
Proof. intros Hr HB. unfold bound85. apply Rmult_le_pos; [nra|apply pow_le; lra]. Qed.
(** ShrunkCovariance with identity target: the same bound as Ewa's, whatever the intensity *)
Theorem C85_shrunk_forgets p r delta diff rows rows' xs ys zs B : (1 <= p)%nat -> 0 < r <= 1 -> 0 <= delta <= 1 ->
  (burn_len r <= length xs)%nat -> (burn_len r <= length ys)%nat -> zs <> [] ->
  observes p diff rows (xs ++ zs) -> observes p diff rows' (ys ++ zs) -> bounded_rows p B (xs ++ zs) -> bounded_rows p B (ys ++ zs) -> 0 <= B ->
  exists o o' S S', fitted_on (C := Shrunk) (SHR r delta "identity" diff) rows o /\ fitted_on (C := Shrunk) (SHR r delta "identity" diff) rows' o' /\
    covariance_ o = Ok (fm p p S) /\ covariance_ o' = Ok (fm p p S') /\
    (forall i j, (i < p)%nat -> (j < p)%nat -> Rabs (S i j - S' i j) <= 20 * (B * B) * (1 - r) ^ (length zs - 1)).
Proof.
  intros Hp Hr Hd Hx Hy Hz Ho Ho' HB HB' H0. assert (N : forall l : list obs, (l ++ zs)%list <> []) by (intros l E; apply app_eq_nil in E; tauto).
  destruct (Shrunk_identity_run p r delta diff rows (xs ++ zs) Hp ltac:(lra) Ho (N _)) as (o & E1 & _ & _ & E4 & _).
  destruct (Shrunk_identity_run p r delta diff rows' (ys ++ zs) Hp ltac:(lra) Ho' (N _)) as (o' & F1 & _ & _ & F4 & _).
  exists o, o'. do 2 eexists. split; [exact E1|]. split; [exact F1|]. split; [exact E4|]. split; [exact F4|]. fold (bound85 B r (length zs)).
  pose proof (fun i j => ewa_cov_forget p r xs ys zs B i j Hr Hx Hy Hz HB HB' H0) as K. set (c := bound85 B r (length zs)) in *.
  set (S := ewa_cov r (burn_len r) (xs ++ zs)) in *. set (S' := ewa_cov r (burn_len r) (ys ++ zs)) in *.
  assert (P1 : 1 <= INR p) by (change 1 with (INR 1); now apply le_INR).
  assert (C0 : 0 <= c) by now apply bound85_nonneg.
  assert (T : - c <= (rtrace p S - rtrace p S') / INR p <= c).
  { unfold rtrace. rewrite <- rsum_minus. assert (TL : - (INR p * c) <= rsum p (fun i => S i i - S' i i) <= INR p * c).
    { split.
      - replace (- (INR p * c)) with (rsum p (fun _ => - c)) by (rewrite rsum_const; ring). apply rsum_le. intros i Hi. specialize (K i i Hi Hi). apply Rabs_both in K. lra.
      - replace (INR p * c) with (rsum p (fun _ => c)) by (rewrite rsum_const; ring). apply rsum_le. intros i Hi. specialize (K i i Hi Hi). apply Rabs_both in K. lra. }
    split; apply Rmult_le_reg_r with (INR p); try lra; unfold Rdiv; rewrite Rmult_assoc, Rinv_l, Rmult_1_r by lra; lra. }
  intros i j Hi Hj. unfold shrinkI.
  replace ((1 - delta) * S i j + delta * (rtrace p S / INR p) * rI i j - ((1 - delta) * S' i j + delta * (rtrace p S' / INR p) * rI i j))
    with ((1 - delta) * (S i j - S' i j) + delta * (((rtrace p S - rtrace p S') / INR p) * rI i j)) by (field; lra).
  set (a := S i j - S' i j). specialize (K i j Hi Hj). fold a in K. apply Rabs_both in K. set (t := (rtrace p S - rtrace p S') / INR p) in *.
  assert (T2 : - c <= t * rI i j <= c) by (unfold rI; destruct (Nat.eqb i j); lra). set (b := t * rI i j) in *.
  apply Rabs_le. split; nra.
Qed.
(** SchurCovariance (linear) and BlockCovariance: p times that bound, the repair included *)
Theorem C85_schur_forgets L p r n_blocks gamma interp diff rows rows' xs ys zs B : lawful L -> (1 <= p)%nat -> 0 < r <= 1 -> (1 <= n_blocks)%Z -> interp <> "geodesic" -> Rabs gamma <= 1 ->
  (burn_len r <= length xs)%nat -> (burn_len r <= length ys)%nat -> zs <> [] ->
  observes p diff rows (xs ++ zs) -> observes p diff rows' (ys ++ zs) -> bounded_rows p B (xs ++ zs) -> bounded_rows p B (ys ++ zs) -> 0 <= B ->
  exists o o' S S', fitted_on (C := Schur L) (SCH r n_blocks gamma interp diff) rows o /\ fitted_on (C := Schur L) (SCH r n_blocks gamma interp diff) rows' o' /\
    covariance_ o = Ok (fm p p S) /\ covariance_ o' = Ok (fm p p S') /\
    (forall i j, (i < p)%nat -> (j < p)%nat -> Rabs (S i j - S' i j) <= INR p * (20 * (B * B) * (1 - r) ^ (length zs - 1))).
Proof.
  intros HL Hp Hr Hn Hi Hg Hx Hy Hz Ho Ho' HB HB' H0. assert (N : forall l : list obs, (l ++ zs)%list <> []) by (intros l E; apply app_eq_nil in E; tauto).
  destruct (C43_schur_linear L p r n_blocks gamma interp diff rows (xs ++ zs) HL Hp ltac:(lra) Hn Hi Ho (N _)) as (o & S & E1 & _ & E3 & [E4 E5] & _).
  destruct (C43_schur_linear L p r n_blocks gamma interp diff rows' (ys ++ zs) HL Hp ltac:(lra) Hn Hi Ho' (N _)) as (o' & S' & F1 & _ & F3 & [F4 F5] & _).
  exists o, o', S, S'. split; [exact E1|]. split; [exact F1|]. split; [exact E3|]. split; [exact F3|]. fold (bound85 B r (length zs)).
  pose proof (bound85_nonneg B r (length zs) Hr H0) as C0. set (c := bound85 B r (length zs)) in *. pose proof (pos_INR p) as P0.
  intros i j Ai Aj. apply (entry_le_fro p (fun i j => S i j - S' i j)); auto; [now apply Rmult_le_pos|].
  eapply Rle_trans; [apply (nearest_nonexpansive p e8 _ _ S S' E4 F4 E5 F5)|]. eapply Rle_trans; [apply symm_shrinks|]. apply fro_le_entries; [exact C0|].
  intros a b Ha Hb. pose proof (ewa_cov_forget p r xs ys zs B a b Hr Hx Hy Hz HB HB' H0 Ha Hb) as K. fold c in K. unfold damped. destruct (Nat.eqb _ _); [exact K|].
  rewrite <- Rmult_minus_distr_l, Rabs_mult. pose proof (Rabs_pos (ewa_cov r (burn_len r) (xs ++ zs) a b - ewa_cov r (burn_len r) (ys ++ zs) a b)). pose proof (Rabs_pos gamma). nra.
Qed.
Theorem C85_block_forgets L p r n_blocks diff rows rows' xs ys zs B : lawful L -> (1 <= p)%nat -> 0 < r <= 1 ->
  (burn_len r <= length xs)%nat -> (burn_len r <= length ys)%nat -> zs <> [] ->
  observes p diff rows (xs ++ zs) -> observes p diff rows' (ys ++ zs) -> bounded_rows p B (xs ++ zs) -> bounded_rows p B (ys ++ zs) -> 0 <= B ->
  exists o o' S S', fitted_on (C := Block L) (BLK r n_blocks diff) rows o /\ fitted_on (C := Block L) (BLK r n_blocks diff) rows' o' /\
    covariance_ o = Ok (fm p p S) /\ covariance_ o' = Ok (fm p p S') /\
    (forall i j, (i < p)%nat -> (j < p)%nat -> Rabs (S i j - S' i j) <= INR p * (20 * (B * B) * (1 - r) ^ (length zs - 1))).
Proof.
  intros HL Hp Hr Hx Hy Hz Ho Ho' HB HB' H0. assert (N : forall l : list obs, (l ++ zs)%list <> []) by (intros l E; apply app_eq_nil in E; tauto).
  destruct (C45_block_covariance L p r n_blocks diff rows (xs ++ zs) HL Hp ltac:(lra) Ho (N _)) as (o & S & P & E1 & _ & E3 & [E4 E5] & _).
  destruct (C45_block_covariance L p r n_blocks diff rows' (ys ++ zs) HL Hp ltac:(lra) Ho' (N _)) as (o' & S' & P' & F1 & _ & F3 & [F4 F5] & _).
  exists o, o', S, S'. split; [exact E1|]. split; [exact F1|]. split; [exact E3|]. split; [exact F3|]. fold (bound85 B r (length zs)).
  pose proof (bound85_nonneg B r (length zs) Hr H0) as C0. set (c := bound85 B r (length zs)) in *. pose proof (pos_INR p) as P0.
  intros i j Ai Aj. apply (entry_le_fro p (fun i j => S i j - S' i j)); auto; [now apply Rmult_le_pos|].
  eapply Rle_trans; [apply (nearest_nonexpansive p e8 _ _ S S' E4 F4 E5 F5)|]. eapply Rle_trans; [apply symm_shrinks|]. apply fro_le_entries; [exact C0|].
  intros a b Ha Hb. pose proof (ewa_cov_forget p r xs ys zs B a b Hr Hx Hy Hz HB HB' H0 Ha Hb) as K. fold c in K. unfold damped. destruct (Nat.eqb _ _); [exact K|].
  rewrite !Rmult_0_l, Rminus_0_r, Rabs_R0. exact C0.
Qed.

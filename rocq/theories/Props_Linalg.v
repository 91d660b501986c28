(** * C38, C41, C42: geodesic_step, make_pos_def, nearest_pos_def

    Exact arithmetic, for every lawful LAPACK ([lawful], Contracts.v); arrays of shape (p, p), p >= 1. *)
From Coq Require Import Reals ZArith List Lia Lra Arith Bool.
From Verif Require Import Num Numpy LinalgModel ListLemmas RMat LinSpec Fin RealSpec Spectral MatAlg Contracts LinalgReal.
Import ListNotations.
Local Open Scope R_scope.

(** ** C41 *)
(** Eigenvalue floor, fixed points, and: the output is the Frobenius-nearest matrix to the symmetrised
    input among the matrices with all eigenvalues >= 1e-8. *)
Theorem C41_make_pos_def L p A : lawful L -> (1 <= p)%nat ->
  exists B, make_pos_def L (fm p p A) = Ok (fm p p B) /\
    bounded_below p e8 B /\
    (bounded_below p e8 (symm A) -> fm p p B = fm p p (symm A)) /\
    (forall C, bounded_below p e8 C ->
       fro2 p (fun i j => B i j - symm A i j) <= fro2 p (fun i j => C i j - symm A i j)).
Proof.
  intros HL Hp. exists (mpd L p A). destruct (mpd_ok L HL p A Hp) as [E H]. repeat split; auto; try apply H.
  - intros HB. apply fm_meq. now apply mpd_fix.
  - intros C HC. now apply mpd_nearest.
Qed.
Theorem C41_make_pos_def_idempotent L p A B : lawful L -> (1 <= p)%nat ->
  make_pos_def L (fm p p A) = Ok B -> make_pos_def L B = Ok B.
Proof.
  intros HL Hp E. destruct (mpd_ok L HL p A Hp) as [E' H]. rewrite E' in E. injection E as <-.
  destruct (mpd_ok L HL p (mpd L p A) Hp) as [-> _]. f_equal. apply fm_meq.
  assert (HS : meq p p (symm (mpd L p A)) (mpd L p A)) by (apply symm_id; apply H).
  eapply meq_trans; [apply mpd_fix; auto|exact HS]. apply (bb_ext p e8 (mpd L p A)); auto. now apply meq_sym.
Qed.
(** non-vacuous: diag(1, 2) is a fixed point *)
Example C41_fixed_point : bounded_below 2 e8 (symm (rdiag (fun i => INR (S i)))).
Proof.
  apply (bb_ext 2 e8 (rdiag (fun i => INR (S i)))).
  - intros i j _ _. unfold symm, rdiag. rewrite (Nat.eqb_sym j i). destruct (Nat.eqb_spec i j); subst; lra.
  - split; [intros i j _ _; unfold rdiag; rewrite (Nat.eqb_sym j i); destruct (Nat.eqb_spec i j); subst; auto|].
    intros v. rewrite qf_diag. unfold rdot, e8. cbn [rsum INR]. pose proof (Rle_0_sqr (v O)). pose proof (Rle_0_sqr (v 1%nat)).
    unfold Rsqr in *. lra.
Qed.

(** ** C42 *)
(** The repair loop needs at most one pass ([fuel] bounds its iterations); the result is positive
    definite, and it is the Frobenius-nearest positive semidefinite matrix to the symmetrised input,
    plus a multiple of the identity by the float spacing of the input's norm when that one is singular. *)
Theorem C42_nearest_pos_def L p A fuel : lawful L -> (1 <= p)%nat -> (1 <= fuel)%nat ->
  exists B P e, nearest_pos_def L fuel (fm p p A) = Ok (fm p p B) /\ pd p B /\
    psd p P /\ (forall C, psd p C ->
       fro2 p (fun i j => P i j - symm A i j) <= fro2 p (fun i j => C i j - symm A i j)) /\
    la_spacing L (mnorm (fm p p A)) = Fin e /\ 0 < e /\
    ((pd p P /\ meq p p B P) \/ (~ pd p P /\ meq p p B (fun i j => P i j + e * rI i j))).
Proof.
  intros HL Hp Hf. destruct (npd_spec L HL p A fuel Hp Hf) as (W & mu & e & He & Hpos & Es & D). cbv zeta in D.
  set (P := eigmax0 p W mu) in *.
  assert (PP : psd p P) by (apply bb_psd, spec_bb; [apply He|]; intros; apply Rmax_r).
  assert (NP : forall C, psd p C -> fro2 p (fun i j => P i j - symm A i j) <= fro2 p (fun i j => C i j - symm A i j)).
  { intros C HC. pose proof (spec_nearest p W mu 0 C (proj1 He) (proj2 (bb_psd p C) HC)) as H.
    rewrite (fro2_meq p (fun i j => P i j - symm A i j) (fun i j => spec p W (fun k => Rmax (mu k) 0) i j - spec p W mu i j)).
    - rewrite (fro2_meq p (fun i j => C i j - symm A i j) (fun i j => C i j - spec p W mu i j)); auto.
      intros i j Hi Hj. now rewrite (eig_spec p _ W mu He i j).
    - intros i j Hi Hj. now rewrite (eig_spec p _ W mu He i j). }
  destruct D as [[Y E]|[N E]].
  - exists P, P, e. split; auto. split; auto. split; auto. split; auto. split; auto. split; auto. left. split; auto. apply meq_refl.
  - eexists. exists P, e. split; [exact E|]. split; [|split; auto; split; auto; split; auto; split; auto; right; split; auto; apply meq_refl].
    apply (bb_pd p e); auto. split.
    + intros i j Hi Hj. rewrite (proj1 PP i j) by auto. f_equal. unfold rI. now rewrite Nat.eqb_sym.
    + intros v. rewrite qf_plus, qf_scal. pose proof (proj2 PP v).
      replace (qf p rI v) with (rdot p v v); [lra|]. rewrite qf_app. apply rdot_ext; [intros i Hi; reflexivity|].
      intros i Hi. symmetry. now apply rapp_I.
Qed.
Theorem C42_pos_def_unchanged L p A fuel : lawful L -> (1 <= p)%nat -> (1 <= fuel)%nat -> pd p A ->
  nearest_pos_def L fuel (fm p p A) = Ok (fm p p A).
Proof.
  intros HL Hp Hf HA. destruct (npd_spec L HL p A fuel Hp Hf) as (W & mu & e & He & _ & _ & D). cbv zeta in D.
  assert (SA : meq p p (symm A) A) by (apply symm_id; apply HA).
  assert (E : meq p p (eigmax0 p W mu) A).
  { eapply meq_trans; [|exact SA]. eapply meq_trans; [|apply meq_sym; apply (eig_spec p _ W mu He)].
    apply spec_ext. intros k Hk. apply Rmax_left. apply Rlt_le. apply (pd_eig p (symm A) W mu); auto.
    apply (pd_ext p A); auto. now apply meq_sym. }
  destruct D as [[_ ->]|[N _]].
  - f_equal. now apply fm_meq.
  - exfalso. apply N. apply (pd_ext p A); auto. now apply meq_sym.
Qed.

(** ** C38 *)
(** start, end and result are diagonalised by the same congruence: start = Q Q^T, end = Q diag(l) Q^T
    (after the eigenvalue floor of make_pos_def), result = Q diag(l^gamma) Q^T. *)
Theorem C38_geodesic_step L p S E g : lawful L -> (1 <= p)%nat ->
  exists S' E' B Q l,
    make_pos_def L (fm p p S) = Ok (fm p p S') /\ make_pos_def L (fm p p E) = Ok (fm p p E') /\
    geodesic_step L (fm p p S) (fm p p E) (Fin g) = Ok (fm p p B) /\ pd p B /\
    (forall k, (k < p)%nat -> 0 < l k) /\
    meq p p S' (spec p Q (fun _ => 1)) /\ meq p p E' (spec p Q l) /\
    meq p p B (spec p Q (fun k => Rpower (l k) g)).
Proof.
  intros HL Hp. destruct (gstep_spec L HL p S E g Hp) as (Q & l & H1 & H2 & H3 & B & H4 & H5 & H6).
  exists (mpd L p S), (mpd L p E), B, Q, l. destruct (mpd_ok L HL p S Hp) as [E1 _]. destruct (mpd_ok L HL p E Hp) as [E2 _].
  repeat split; auto; apply H5.
Qed.
Theorem C38_geodesic_endpoints L p S E : lawful L -> (1 <= p)%nat ->
  geodesic_step L (fm p p S) (fm p p E) (Fin 0) = make_pos_def L (fm p p S) /\
  geodesic_step L (fm p p S) (fm p p E) (Fin 1) = make_pos_def L (fm p p E) /\
  (bounded_below p e8 S -> geodesic_step L (fm p p S) (fm p p E) (Fin 0) = Ok (fm p p S)) /\
  (bounded_below p e8 E -> geodesic_step L (fm p p S) (fm p p E) (Fin 1) = Ok (fm p p E)).
Proof.
  intros HL Hp.
  assert (G0 : geodesic_step L (fm p p S) (fm p p E) (Fin 0) = make_pos_def L (fm p p S)).
  { destruct (gstep_spec L HL p S E 0 Hp) as (Q & l & H1 & H2 & H3 & B & H4 & _ & H6). rewrite H4.
    destruct (mpd_ok L HL p S Hp) as [-> _]. f_equal. apply fm_meq. eapply meq_trans; [exact H6|].
    eapply meq_trans; [|apply meq_sym; exact H2]. apply spec_ext. intros k Hk. apply Rpower_O. auto. }
  assert (G1 : geodesic_step L (fm p p S) (fm p p E) (Fin 1) = make_pos_def L (fm p p E)).
  { destruct (gstep_spec L HL p S E 1 Hp) as (Q & l & H1 & H2 & H3 & B & H4 & _ & H6). rewrite H4.
    destruct (mpd_ok L HL p E Hp) as [-> _]. f_equal. apply fm_meq. eapply meq_trans; [exact H6|].
    eapply meq_trans; [|apply meq_sym; exact H3]. apply spec_ext. intros k Hk. apply Rpower_1. auto. }
  assert (FX : forall X, bounded_below p e8 X -> make_pos_def L (fm p p X) = Ok (fm p p X)).
  { intros X HX. destruct (mpd_ok L HL p X Hp) as [-> _]. f_equal. apply fm_meq.
    assert (HS : meq p p (symm X) X) by (apply symm_id; apply HX).
    eapply meq_trans; [apply mpd_fix; auto|exact HS]. apply (bb_ext p e8 X); auto. now apply meq_sym. }
  split; auto. split; auto. split; intros HX; [rewrite G0|rewrite G1]; auto.
Qed.

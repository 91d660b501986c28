(** * Contracts of the LAPACK / libm routines

    The routines of [np.linalg] are parameters of the model ([LinAlg]).  [lawful L] states what the
    theorems that depend on them assume, for symmetric real p x p arrays (p >= 1; any square real array for [slogdet]) in exact arithmetic.
    It is a hypothesis of those theorems, not an axiom; [lawful_satisfiable] shows that routines with
    these contracts exist. *)
From Coq Require Import Reals List Lia Lra Arith ClassicalEpsilon.
From Verif Require Import Num Numpy RMat LinSpec Fin Spectral MatAlg Det.
Import ListNotations.
Local Open Scope R_scope.

(** [eigh]: real eigenvalues and an orthonormal basis of eigenvectors (columns of U); no ordering is assumed. *)
Definition eigh_spec p A (r : res (vec NumX * mat NumX)) : Prop :=
  exists lam U, r = Ok (fv p lam, fm p p U) /\ eig_of p A U lam.
(** [inv]: the inverse, or LinAlgError exactly on singular input. *)
Definition inv_spec p A (r : res (mat NumX)) : Prop :=
  (exists B, r = Ok (fm p p B) /\ inverse p A B) \/ (r = Err LinAlgError /\ ~ invertible p A).
(** [pinv]: the Moore-Penrose inverse. *)
Definition pinv_spec p A (r : res (mat NumX)) : Prop :=
  exists B, r = Ok (fm p p B) /\ penrose p A B.
(** [cholesky]: succeeds exactly on positive definite input, LinAlgError otherwise. *)
Definition cholesky_spec p A (r : res (mat NumX)) : Prop :=
  (pd p A -> exists C, r = Ok C) /\ (~ pd p A -> r = Err LinAlgError).
(** [svd]: A = U diag(s) Vh, U and Vh orthogonal, s >= 0. *)
Definition svd_spec p A (r : res (mat NumX * vec NumX * mat NumX)) : Prop :=
  exists U s V, r = Ok (fm p p U, fv p s, fm p p V) /\ orth p U /\ orth p V /\
    (forall k, (k < p)%nat -> 0 <= s k) /\
    forall i j, (i < p)%nat -> (j < p)%nat -> A i j = rsum p (fun k => U i k * s k * V k j).
(** [real(eigvals)]: the eigenvalues with multiplicity. *)
Definition eigvals_spec p A (r : res (vec NumX)) : Prop :=
  exists lam U, r = Ok (fv p lam) /\ eig_of p A U lam.
(** [solve] *)
Definition solve_spec p q A B (r : res (mat NumX)) : Prop :=
  (exists X, r = Ok (fm p q X) /\ invertible p A /\ meq p q (rmul p A X) B) \/ (r = Err LinAlgError /\ ~ invertible p A).

(** [slogdet]: sign and logarithm of the absolute value of the determinant ([rdet], Det.v) *)
Definition slogdet_spec p A (r : res (NumX * NumX)) : Prop :=
  (rdet p A = 0 /\ r = Ok (Fin 0, NInf)) \/
  (rdet p A <> 0 /\ r = Ok (Fin (if Rlt_dec 0 (rdet p A) then 1 else - 1), Fin (ln (Rabs (rdet p A))))).

Record lawful (L : LinAlg NumX) : Prop := mkLawful {
  law_eigh : forall p A, (1 <= p)%nat -> sym p A -> eigh_spec p A (la_eigh L (fm p p A));
  law_inv : forall p A, (1 <= p)%nat -> sym p A -> inv_spec p A (la_inv L (fm p p A));
  law_pinv : forall p A, (1 <= p)%nat -> sym p A -> pinv_spec p A (la_pinv L (fm p p A));
  law_cholesky : forall p A, (1 <= p)%nat -> sym p A -> cholesky_spec p A (la_cholesky L (fm p p A));
  law_svd : forall p A, (1 <= p)%nat -> sym p A -> svd_spec p A (la_svd L (fm p p A));
  law_eigvals : forall p A, (1 <= p)%nat -> sym p A -> eigvals_spec p A (la_eigvals_re L (fm p p A));
  (** [solve(A, B)]: the solution of A X = B, or LinAlgError exactly on singular A *)
  law_solve : forall p q A B, (1 <= p)%nat -> sym p A -> solve_spec p q A B (la_solve L (fm p p A) (fm p q B));
  (** [np.spacing] of a non-negative float is positive *)
  law_spacing : forall x, 0 <= x -> exists e, 0 < e /\ la_spacing L (Fin x) = Fin e;
  (** [x ** g] for a positive base *)
  law_pow : forall x g, 0 < x -> la_pow L (Fin x) (Fin g) = Fin (Rpower x g);
  law_slogdet : forall p A, (1 <= p)%nat -> slogdet_spec p A (la_slogdet L (fm p p A));
  (** the constants [np.log(2 * np.pi)] and [2.0 / np.pi] *)
  law_log2pi : la_log2pi L = Fin (ln (2 * PI));
  law_two_over_pi : la_two_over_pi L = Fin (2 / PI)
}.

(** ** The contracts are satisfiable *)
Definition toR (x : NumX) : R := match x with Fin r => r | _ => 0 end.
Definition matR (a : mat NumX) : rmat := fun i j => toR (mget a i j).
Lemma matR_fm p q A : meq p q (matR (fm p q A)) A.
Proof. intros i j Hi Hj. unfold matR. now rewrite fm_get. Qed.
Definition pick {A} (P : res A -> Prop) : res A := epsilon (inhabits (Err ValueError)) P.
Lemma pick_ok {A} (P : res A -> Prop) : (exists r, P r) -> P (pick P).
Proof. apply epsilon_spec. Qed.

Lemma eig_of_ext p A B U lam : meq p p A B -> eig_of p A U lam -> eig_of p B U lam.
Proof. intros E [H1 H2]. split; auto. intros i j Hi Hj. rewrite <- (E i j) by auto. now apply H2. Qed.
Lemma invertible_ext p A B : meq p p A B -> invertible p A -> invertible p B.
Proof. intros E (C & H). exists C. now apply (inverse_ext p A B C C). Qed.
Lemma inv_ex p A : exists r, inv_spec p A r.
Proof.
  destruct (excluded_middle_informative (invertible p A)) as [(B & HB)|N].
  - exists (Ok (fm p p B)). left. eauto.
  - exists (Err LinAlgError). right. auto.
Qed.
Lemma solve_ex p q A B : exists r, solve_spec p q A B r.
Proof.
  destruct (excluded_middle_informative (invertible p A)) as [I|N].
  - destruct I as (C & HC & HC'). exists (Ok (fm p q (rmul p C B))). left. eexists. split; [reflexivity|].
    split; [exists C; split; auto|]. intros i j Hi Hj.
    rewrite <- rmul_assoc. rewrite (rmul_ext p p q _ rI _ B HC (meq_refl _ _ _) i j Hi Hj). now apply rmul_I_l.
  - exists (Err LinAlgError). right. auto.
Qed.
Lemma svd_ex p A : sym p A -> exists r, svd_spec p A r.
Proof.
  intros HS. destruct (spectral p A HS) as (W & lam & [HW HA]). set (sg := fun k => if Rle_dec 0 (lam k) then 1 else - 1).
  exists (Ok (fm p p (fun i k => W i k * sg k), fv p (fun k => Rabs (lam k)), fm p p (rT W))).
  do 3 eexists. split; [reflexivity|]. destruct HW as [W1 W2]. split; [|split; [|split]].
  - assert (S2 : forall k, sg k * sg k = 1) by (intros k; unfold sg; destruct (Rle_dec 0 (lam k)); ring).
    split; intros i j Hi Hj; unfold rmul, rT.
    + rewrite (rsum_ext p _ (fun k => sg i * sg j * (W k i * W k j))) by (intros; ring). rewrite rsum_scal.
      change (rsum p (fun k => W k i * W k j)) with (rmul p (rT W) W i j). rewrite W1 by auto.
      unfold rI. destruct (Nat.eqb_spec i j) as [->|]; [rewrite S2|]; ring.
    + rewrite <- (W2 i j Hi Hj). unfold rmul, rT. apply rsum_ext. intros k _.
      replace (W i k * sg k * (W j k * sg k)) with (sg k * sg k * (W i k * W j k)) by ring. rewrite S2. ring.
  - split.
    + intros i j Hi Hj. rewrite <- (W2 i j Hi Hj). unfold rmul, rT. reflexivity.
    + intros i j Hi Hj. rewrite <- (W1 i j Hi Hj). unfold rmul, rT. reflexivity.
  - intros. apply Rabs_pos.
  - intros i j Hi Hj. rewrite (HA i j Hi Hj). apply rsum_ext. intros k _. unfold rT, sg.
    destruct (Rle_dec 0 (lam k)); [rewrite Rabs_right by lra|rewrite Rabs_left by lra]; ring.
Qed.

Definition la_witness : LinAlg NumX :=
  mkLA NumX
    (fun a => pick (inv_spec (length a) (matR a)))
    (fun a => pick (pinv_spec (length a) (matR a)))
    (fun a => pick (eigh_spec (length a) (matR a)))
    (fun a => pick (svd_spec (length a) (matR a)))
    (fun a => pick (cholesky_spec (length a) (matR a)))
    (fun a => pick (eigvals_spec (length a) (matR a)))
    (fun a b => pick (solve_spec (length a) (length (hd [] b)) (matR a) (matR b)))
    (fun a => pick (slogdet_spec (length a) (matR a)))
    (fun _ => Fin 1)
    (fun x g => Fin (Rpower (toR x) (toR g)))
    (Fin (ln (2 * PI))) (Fin (2 / PI)).
Lemma fm_length p q A : length (fm p q A) = p.
Proof. apply fm_nrows. Qed.
Theorem lawful_satisfiable : exists L, lawful L.
Proof.
  exists la_witness. split.
  - intros p A Hp HS. cbn [la_eigh la_witness]. rewrite fm_length.
    assert (S' : sym p (matR (fm p p A))) by (apply (sym_ext p A); auto; symmetry; apply matR_fm).
    destruct (pick_ok (eigh_spec p (matR (fm p p A)))) as (lam & U & E & H).
    + destruct (spectral p _ S') as (U & lam & H). exists (Ok (fv p lam, fm p p U)). exists lam, U. auto.
    + exists lam, U. split; auto. apply (eig_of_ext p (matR (fm p p A))); auto. apply matR_fm.
  - intros p A Hp HS. cbn [la_inv la_witness]. rewrite fm_length.
    destruct (pick_ok (inv_spec p (matR (fm p p A))) (inv_ex _ _)) as [(B & E & H)|[E H]].
    + left. exists B. split; auto. apply (inverse_ext p (matR (fm p p A)) A B B); auto. apply matR_fm. reflexivity.
    + right. split; auto. intros N. apply H. apply (invertible_ext p A); auto. symmetry. apply matR_fm.
  - intros p A Hp HS. cbn [la_pinv la_witness]. rewrite fm_length.
    assert (S' : sym p (matR (fm p p A))) by (apply (sym_ext p A); auto; symmetry; apply matR_fm).
    destruct (pick_ok (pinv_spec p (matR (fm p p A)))) as (B & E & H).
    + destruct (penrose_exists p _ S') as (B & H). exists (Ok (fm p p B)). exists B. auto.
    + exists B. split; auto. apply (penrose_ext p (matR (fm p p A)) A B B); auto. apply matR_fm. reflexivity.
  - intros p A Hp HS. cbn [la_cholesky la_witness]. rewrite fm_length.
    destruct (pick_ok (cholesky_spec p (matR (fm p p A)))) as [H1 H2].
    + destruct (excluded_middle_informative (pd p (matR (fm p p A)))) as [Y|N].
      * exists (Ok []). split; [eauto|intros; contradiction].
      * exists (Err LinAlgError). split; [intros; contradiction|auto].
    + split; intros H; [apply H1|apply H2; intros N; apply H].
      * apply (pd_ext p A); auto. symmetry. apply matR_fm.
      * apply (pd_ext p (matR (fm p p A))); auto. apply matR_fm.
  - intros p A Hp HS. cbn [la_svd la_witness]. rewrite fm_length.
    assert (S' : sym p (matR (fm p p A))) by (apply (sym_ext p A); auto; symmetry; apply matR_fm).
    destruct (pick_ok (svd_spec p (matR (fm p p A))) (svd_ex _ _ S')) as (U & s & V & E & H1 & H2 & H3 & H4).
    exists U, s, V. repeat split; auto; try apply H1; try apply H2. intros i j Hi Hj. rewrite <- (H4 i j Hi Hj). symmetry. now apply matR_fm.
  - intros p A Hp HS. cbn [la_eigvals_re la_witness]. rewrite fm_length.
    assert (S' : sym p (matR (fm p p A))) by (apply (sym_ext p A); auto; symmetry; apply matR_fm).
    destruct (pick_ok (eigvals_spec p (matR (fm p p A)))) as (lam & U & E & H).
    + destruct (spectral p _ S') as (U & lam & H). exists (Ok (fv p lam)). exists lam, U. auto.
    + exists lam, U. split; auto. apply (eig_of_ext p (matR (fm p p A))); auto. apply matR_fm.
  - intros p q A B Hp HP. cbn [la_solve la_witness]. rewrite fm_length.
    assert (EQ : length (hd [] (fm p q B)) = q) by (apply (fm_ncols p q B Hp)). rewrite EQ.
    destruct (pick_ok (solve_spec p q (matR (fm p p A)) (matR (fm p q B))) (solve_ex _ _ _ _)) as [(X & E & I & H)|[E H]].
    + left. exists X. split; auto. split; [apply (invertible_ext p (matR (fm p p A))); auto; apply matR_fm|].
      intros i j Hi Hj. rewrite <- (matR_fm p q B i j Hi Hj), <- (H i j Hi Hj).
      apply (rmul_ext p p q); auto using meq_refl. symmetry. apply matR_fm.
    + right. split; auto. intros N. apply H. apply (invertible_ext p A); auto. symmetry. apply matR_fm.
  - intros x _. exists 1. split; [lra|reflexivity].
  - intros x g _. reflexivity.
  - intros p A Hp. cbn [la_slogdet la_witness]. rewrite fm_length.
    assert (E : rdet p (matR (fm p p A)) = rdet p A) by (apply rdet_ext, matR_fm).
    destruct (pick_ok (slogdet_spec p (matR (fm p p A)))) as [[H1 H2]|[H1 H2]].
    + destruct (Req_dec (rdet p (matR (fm p p A))) 0); eexists; [left|right]; eauto.
    + left. rewrite <- E. auto.
    + right. rewrite <- E. auto.
  - reflexivity.
  - reflexivity.
Qed.

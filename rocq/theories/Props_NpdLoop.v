(** * C42: the repair loop of nearest_pos_def ends whatever margin the Cholesky test needs

    In exact arithmetic one pass is enough (C42_nearest_pos_def).  With a factorisation that also rejects matrices that are positive
    definite by less than some margin, as a rounded one does, the loop goes on; it still ends, because the shifts grow. *)
From Coq Require Import Reals ZArith List Lia Lra Arith Bool ClassicalEpsilon.
From Verif Require Import Num Numpy LinalgModel ListLemmas RMat LinSpec Fin RealSpec EwaReal EmpFacts ShrinkReal Spectral MatAlg Contracts LinalgReal.
Import ListNotations.
Local Open Scope R_scope.

(** [L] is exact except that [cholesky] is only sure to succeed when all eigenvalues are at least [tau] *)
Definition cautious (L : LinAlg NumX) (tau : R) : Prop :=
  (forall p A, (1 <= p)%nat -> sym p A -> svd_spec p A (la_svd L (fm p p A))) /\
  (forall p A, (1 <= p)%nat -> sym p A -> eigvals_spec p A (la_eigvals_re L (fm p p A))) /\
  (forall p A, (1 <= p)%nat -> sym p A -> (bounded_below p tau A -> exists l, la_cholesky L (fm p p A) = Ok l) /\ forall e, la_cholesky L (fm p p A) = Err e -> e = LinAlgError).

Definition least (p : nat) (X : rmat) (l : R) : Prop := bounded_below p l X /\ exists v, rdot p v v = 1 /\ qf p X v = l.
Lemma least_unique p X l l' : least p X l -> least p X l' -> l = l'.
Proof. intros [[_ B] (v & N & E)] [[_ B'] (v' & N' & E')]. specialize (B v'). specialize (B' v). rewrite N', E' in B. rewrite N, E in B'. lra. Qed.
Lemma qf_shift p X c v : qf p (fun i j => X i j + c * rI i j) v = qf p X v + c * rdot p v v.
Proof. rewrite qf_plus, qf_scal. f_equal. f_equal. rewrite qf_app. apply rdot_ext; [intros i Hi; reflexivity|]. intros i Hi. now apply rapp_I. Qed.
Lemma sym_shift p X c : sym p X -> sym p (fun i j => X i j + c * rI i j).
Proof. intros S i j Hi Hj. rewrite (S i j) by auto. f_equal. unfold rI. now rewrite Nat.eqb_sym. Qed.
Lemma least_shift p X l c : least p X l -> least p (fun i j => X i j + c * rI i j) (l + c).
Proof.
  intros [[S B] (v & N & E)]. split; [split|].
  - now apply sym_shift.
  - intros w. rewrite qf_shift. specialize (B w). lra.
  - exists v. split; [exact N|]. rewrite qf_shift, E, N. lra.
Qed.
Lemma least_eig p X U lam k : (k < p)%nat -> eig_of p X U lam -> (forall i, (i < p)%nat -> lam k <= lam i) -> least p X (lam k).
Proof.
  intros Hk HE HM. pose proof (eig_spec p X U lam HE) as E. split.
  - apply (bb_ext p (lam k) (spec p U lam)); [now apply meq_sym|]. apply spec_bb; [apply HE|exact HM].
  - exists (fun i => U i k). destruct (spec_col p U lam k (proj1 HE) Hk) as [Q N]. split; [exact N|]. rewrite (qf_meq p X (spec p U lam)) by exact E. exact Q.
Qed.

Section Loop.
  Context (L : LinAlg NumX) (tau : R) (HC : cautious L tau) (p : nat) (Hp : (1 <= p)%nat) (e : R) (He : 0 < e).
  Lemma tested X : sym p X -> (is_positive_def L (fm p p X) = Ok true) \/ (is_positive_def L (fm p p X) = Ok false /\ ~ bounded_below p tau X).
  Proof.
    intros S. destruct HC as (_ & _ & Ch). destruct (Ch p X Hp S) as [C1 C2]. unfold is_positive_def. destruct (la_cholesky L (fm p p X)) as [l|er] eqn:E; [now left|]. right.
    rewrite (C2 er eq_refl). split; [reflexivity|]. intros B. destruct (C1 B) as [l X']. discriminate.
  Qed.
  (** one pass *)
  Lemma pass X k l : least p X l -> is_positive_def L (fm p p X) = Ok false -> forall fuel,
    npd_loop L (S fuel) k (Fin e) (meye p) (fm p p X) = npd_loop L fuel (S k) (Fin e) (meye p) (fm p p (fun i j => X i j + (- l * INR (k * k) + e) * rI i j)).
  Proof.
    intros HX EF fuel. pose proof (proj1 (proj1 HX)) as S. destruct HC as (_ & Ev & _). cbn [npd_loop]. rewrite EF. cbn [bind]. destruct (Ev p X Hp S) as (lam & U & El & HU). rewrite El. cbn [bind].
    destruct (vmin_fin p lam Hp) as (m & Hm & Em & Lm). rewrite Em. cbn [bind].
    assert (lam m = l) by (apply (least_unique p X); [now apply (least_eig p X U)|exact HX]). subst l.
    rewrite meye_fin. rewrite (mmap_fin p p _ rI (fun i j => (- lam m * INR (k * k) + e) * rI i j)).
    2:{ intros i j Hi Hj. rewrite nofn_fin, opp_fin, mul_fin, add_fin, mul_fin. f_equal. ring. }
    rewrite madd_fin. reflexivity.
  Qed.
  (** after the first pass the least eigenvalue alternates in sign and at least doubles in size *)
  Lemma loop_ends : forall j fuel k X l M (pos : bool), (j <= fuel)%nat -> (2 <= k)%nat -> least p X l -> e <= M -> (if pos then M <= l else l <= - M) ->
    Nat.even j = pos -> tau <= M * 2 ^ j -> exists B, npd_loop L fuel k (Fin e) (meye p) (fm p p X) = Ok (fm p p B) /\ sym p B /\ is_positive_def L (fm p p B) = Ok true.
  Proof.
    induction j as [|j IH]; intros fuel k X l M pos Hj Hk HX HM Hl Hev Ht.
    - cbn in Hev. subst pos. exists X. pose proof (proj1 (proj1 HX)) as S. assert (BB : bounded_below p tau X).
      { destruct HX as [[_ B] _]. split; [exact S|]. intros v. specialize (B v). pose proof (rdot_nonneg p v). assert (tau <= l) by (cbn in Ht; lra). assert (tau * rdot p v v <= l * rdot p v v) by (apply Rmult_le_compat_r; auto). lra. }
      destruct (tested X S) as [T|[_ T]]; [|contradiction]. split; [|auto]. destruct fuel; cbn [npd_loop]; now rewrite T.
    - pose proof (proj1 (proj1 HX)) as S. destruct (tested X S) as [T|[T _]].
      + exists X. split; [|auto]. destruct fuel; cbn [npd_loop]; now rewrite T.
      + destruct fuel as [|fuel]; [lia|]. rewrite (pass X k l HX T).
        assert (K : 4 <= INR (k * k)). { replace 4 with (INR 4) by (simpl; lra). apply le_INR. assert (2 * 2 <= k * k)%nat by (apply Nat.mul_le_mono; auto). lia. }
        apply (IH fuel (Datatypes.S k) _ (l + (- l * INR (k * k) + e)) (2 * M) (negb pos)); try lia; try lra.
        * now apply least_shift.
        * destruct pos; cbn [negb].
          -- assert (4 * M <= l * INR (k * k) - 0). { rewrite Rminus_0_r, Rmult_comm. apply Rle_trans with (4 * l); [lra|]. rewrite (Rmult_comm l). apply Rmult_le_compat_r; lra. }
             assert (4 * l <= l * INR (k * k)) by (rewrite (Rmult_comm l); apply Rmult_le_compat_r; lra). lra.
          -- assert (4 * - l <= - l * INR (k * k)) by (rewrite (Rmult_comm (- l)); apply Rmult_le_compat_r; lra). lra.
        * rewrite Nat.even_succ in Hev. rewrite <- Nat.negb_even in Hev. rewrite <- Hev. now rewrite negb_involutive.
        * cbn [pow] in Ht. lra.
  Qed.
End Loop.
(** However large the margin [tau] the Cholesky test needs, [nearest_pos_def] ends: with [j] even and tau <= e 2^j, where e is the float
    spacing of the input's norm, after at most j + 1 passes, with a symmetric matrix that passes the test. *)
Theorem C42_loop_ends_with_margin (L : LinAlg NumX) p A tau e j fuel : cautious L tau -> (1 <= p)%nat -> 0 < e -> la_spacing L (mnorm (fm p p A)) = Fin e ->
  Nat.Even j -> tau <= e * 2 ^ j -> (j < fuel)%nat ->
  exists B, nearest_pos_def L fuel (fm p p A) = Ok (fm p p B) /\ sym p B /\ is_positive_def L (fm p p B) = Ok true.
Proof.
  intros HC Hp He Es Hj Ht Hf. pose proof HC as (Sv & Ev & _). unfold nearest_pos_def. rewrite to_symmetric_fin. cbn [bind]. fold (symm A).
  destruct (Sv p (symm A) Hp (symm_sym p A)) as (U & s & V & E & _). rewrite E. cbn [bind].
  rewrite transpose_sq_fin, mdiag_fin, matmul_fin by auto. cbn [bind]. rewrite matmul_fin by auto. cbn [bind]. rewrite madd_fin. cbn [bind]. rewrite nofZ_fin, mdivs_fin by lra. rewrite to_symmetric_fin. cbn [bind].
  match goal with |- context [fm p p ?F] => set (X := F) end.
  assert (S : sym p X) by (intros a b _ _; unfold X; lra).
  destruct (tested L tau HC p Hp X S) as [T|[T _]]; rewrite T; cbn [bind].
  - exists X. auto.
  - rewrite Es, fm_nrows. destruct fuel as [|fuel]; [lia|].
    destruct (Ev p X Hp S) as (lam & U' & _ & HU). destruct (vmin_fin p lam Hp) as (m & Hm & _ & Lm). pose proof (least_eig p X U' lam m Hm HU Lm) as LX.
    rewrite (pass L tau HC p Hp e X 1 (lam m) LX T). apply (loop_ends L tau HC p Hp e He j fuel 2 _ (lam m + (- lam m * INR (1 * 1) + e)) e true); try lia; try lra.
    + now apply least_shift.
    + cbn [Nat.mul Nat.add INR]. lra.
    + now apply Nat.even_spec.
Qed.
(** Such routines exist for every margin: exact ones whose factorisation rejects whatever has an eigenvalue below tau. *)
Example C42_margin_witness tau : exists L, cautious L tau /\ (forall p A, (1 <= p)%nat -> sym p A -> (is_positive_def L (fm p p A) = Ok true <-> bounded_below p tau A)) /\
  exists fuel B, nearest_pos_def L fuel (fm 2 2 (fun i j => if Nat.eqb i j then 1 else 2)) = Ok (fm 2 2 B) /\ bounded_below 2 tau B.
Proof.
  destruct lawful_satisfiable as [L0 H0].
  set (ch := fun a : mat NumX => if excluded_middle_informative (exists p A, a = fm p p A /\ bounded_below p tau A) then Ok a else Err LinAlgError : res (mat NumX)).
  set (L := mkLA NumX (la_inv L0) (la_pinv L0) (la_eigh L0) (la_svd L0) ch (la_eigvals_re L0) (la_solve L0) (la_slogdet L0) (la_spacing L0) (la_pow L0) (la_log2pi L0) (la_two_over_pi L0)).
  assert (HC : cautious L tau).
  { split; [|split].
    - intros p A Hp S. exact (law_svd L0 H0 p A Hp S).
    - intros p A Hp S. exact (law_eigvals L0 H0 p A Hp S).
    - intros p A Hp S. change (la_cholesky L) with ch. unfold ch. destruct (excluded_middle_informative _) as [Y|N]; split.
      + eauto. + discriminate. + intros B. exfalso. apply N. exists p, A. auto. + intros e [= <-]. reflexivity. }
  assert (IFF : forall p A, (1 <= p)%nat -> sym p A -> (is_positive_def L (fm p p A) = Ok true <-> bounded_below p tau A)).
  { intros p A Hp S. unfold is_positive_def. change (la_cholesky L) with ch. unfold ch. destruct (excluded_middle_informative _) as [Y|N]; split; auto.
    - intros _. destruct Y as (q & A' & E & B). assert (p = q) by (rewrite <- (fm_nrows p p A), E; apply fm_nrows). subst q. apply (bb_ext p tau A'); [|exact B]. intros i j Hi Hj. symmetry. now apply (fm_inj p p A A').
    - discriminate.
    - intros B. exfalso. apply N. exists p, A. auto. }
  exists L. split; [exact HC|]. split; [exact IFF|].
  set (A := fun i j : nat => if Nat.eqb i j then 1 else 2).
  assert (Hn : exists x, 0 <= x /\ mnorm (fm 2 2 A) = Fin x).
  { exists (sqrt (fro2 2 A)). split; [apply sqrt_pos|]. unfold mnorm. rewrite (mmap_fin 2 2 _ A (fun i j => A i j * A i j)) by (intros; reflexivity).
    rewrite msum_fin. apply sqrt_fin. apply rsum_nonneg. intros. apply rsum_nonneg. intros. apply Rle_0_sqr. }
  destruct Hn as (x & Hx & En). destruct (law_spacing L0 H0 x Hx) as (e & He & Ee).
  destruct (Pow_x_infinity 2 ltac:(rewrite Rabs_pos_eq; lra) (Rabs tau / e)) as (n & Hn).
  assert (G : tau <= e * 2 ^ (2 * n)).
  { specialize (Hn (2 * n)%nat ltac:(lia)). rewrite Rabs_pos_eq in Hn by (apply pow_le; lra). pose proof (Rle_abs tau).
    assert (Rabs tau / e * e <= 2 ^ (2 * n) * e) by (apply Rmult_le_compat_r; lra). replace (Rabs tau / e * e) with (Rabs tau) in H1 by (field; lra). lra. }
  destruct (C42_loop_ends_with_margin L 2 A tau e (2 * n) (S (2 * n)) HC ltac:(lia) He) as (B & EB & SB & PB); auto.
  - change (la_spacing L) with (la_spacing L0). now rewrite En.
  - exists n. reflexivity.
  - exists (S (2 * n)), B. split; [exact EB|]. apply IFF; auto.
Qed.

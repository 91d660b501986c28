(** * Finite sums, quadratic forms and positive semidefiniteness over the reals (pure mathematics) *)
From Coq Require Import Reals List Lia Lra Arith Bool Permutation.
Import ListNotations.
Local Open Scope R_scope.

(** [rsum n f] = f 0 + ... + f (n-1) *)
Fixpoint rsum (n : nat) (f : nat -> R) : R :=
  match n with O => 0 | S n => rsum n f + f n end.
(** Sum of a list *)
Fixpoint lsum (l : list R) : R := match l with [] => 0 | x :: l => x + lsum l end.

Lemma rsum_ext n f g : (forall i, (i < n)%nat -> f i = g i) -> rsum n f = rsum n g.
Proof. induction n; simpl; intros H; auto. rewrite IHn, H; auto. Qed.
Lemma rsum_plus n f g : rsum n (fun i => f i + g i) = rsum n f + rsum n g.
Proof. induction n; simpl; [lra|rewrite IHn; lra]. Qed.
Lemma rsum_minus n f g : rsum n (fun i => f i - g i) = rsum n f - rsum n g.
Proof. induction n; simpl; [lra|rewrite IHn; lra]. Qed.
Lemma rsum_scal n c f : rsum n (fun i => c * f i) = c * rsum n f.
Proof. induction n; simpl; [lra|rewrite IHn; lra]. Qed.
Lemma rsum_scal_r n c f : rsum n (fun i => f i * c) = rsum n f * c.
Proof. induction n; simpl; [lra|rewrite IHn; lra]. Qed.
Lemma rsum_opp n f : rsum n (fun i => - f i) = - rsum n f.
Proof. induction n; simpl; [lra|rewrite IHn; lra]. Qed.
Lemma rsum_div n c f : rsum n (fun i => f i / c) = rsum n f / c.
Proof. unfold Rdiv. apply rsum_scal_r. Qed.
Lemma rsum_0 n : rsum n (fun _ => 0) = 0.
Proof. induction n; simpl; [lra|rewrite IHn; lra]. Qed.
Lemma rsum_zero n f : (forall i, (i < n)%nat -> f i = 0) -> rsum n f = 0.
Proof. intros H. rewrite (rsum_ext n f (fun _ => 0)); auto. apply rsum_0. Qed.
Lemma rsum_const n c : rsum n (fun _ => c) = INR n * c.
Proof. induction n; [simpl; lra|]. cbn [rsum]. rewrite IHn, S_INR; lra. Qed.
Lemma rsum_nonneg n f : (forall i, (i < n)%nat -> 0 <= f i) -> 0 <= rsum n f.
Proof. induction n; simpl; intros H; [lra|]. apply Rplus_le_le_0_compat; auto. Qed.
Lemma rsum_le n f g : (forall i, (i < n)%nat -> f i <= g i) -> rsum n f <= rsum n g.
Proof. induction n; simpl; intros H; [lra|]. apply Rplus_le_compat; auto. Qed.
Lemma rsum_swap n m f : rsum n (fun i => rsum m (fun j => f i j)) = rsum m (fun j => rsum n (fun i => f i j)).
Proof.
  induction n; simpl.
  - now rewrite rsum_0.
  - rewrite IHn. now rewrite rsum_plus.
Qed.
Lemma rsum_delta n k f : (k < n)%nat -> rsum n (fun i => if Nat.eqb i k then f i else 0) = f k.
Proof.
  induction n; intros H; [lia|]. simpl. destruct (Nat.eqb_spec n k).
  - subst. rewrite rsum_zero; [lra|]. intros i Hi. destruct (Nat.eqb_spec i k); auto; lia.
  - rewrite IHn by lia. lra.
Qed.
Lemma rsum_delta' n k f : (k < n)%nat -> rsum n (fun i => if Nat.eqb k i then f i else 0) = f k.
Proof. intros H. rewrite <- (rsum_delta n k f H). apply rsum_ext. intros. now rewrite Nat.eqb_sym. Qed.
Lemma rsum_pos_zero n f : (forall i, (i < n)%nat -> 0 <= f i) -> rsum n f = 0 -> forall i, (i < n)%nat -> f i = 0.
Proof.
  induction n; simpl; intros H E i Hi; [lia|].
  assert (0 <= rsum n f) by (apply rsum_nonneg; auto). assert (0 <= f n) by auto.
  destruct (Nat.eq_dec i n); [subst; lra|]. apply IHn; auto; try lia; lra.
Qed.
Lemma rsum_pos n f k : (forall i, (i < n)%nat -> 0 <= f i) -> (k < n)%nat -> 0 < f k -> 0 < rsum n f.
Proof.
  intros H Hk Hp. assert (0 <= rsum n f) by (apply rsum_nonneg; auto).
  destruct (Req_dec (rsum n f) 0); [|lra]. pose proof (rsum_pos_zero n f H H1 k Hk). lra.
Qed.
Lemma rsum_ge_term n f k : (forall i, (i < n)%nat -> 0 <= f i) -> (k < n)%nat -> f k <= rsum n f.
Proof.
  induction n; intros H Hk; [lia|]. simpl. assert (0 <= rsum n f) by (apply rsum_nonneg; auto).
  assert (0 <= f n) by auto. destruct (Nat.eq_dec k n); [subst; lra|].
  assert (f k <= rsum n f) by (apply IHn; auto; lia). lra.
Qed.
Lemma rsum_split a b f : rsum (a + b) f = rsum a f + rsum b (fun i => f (a + i)%nat).
Proof.
  induction b; [rewrite Nat.add_0_r; simpl; lra|]. rewrite Nat.add_succ_r. simpl. rewrite IHb. lra.
Qed.
Lemma rsum_S_first n f : rsum (S n) f = f O + rsum n (fun i => f (S i)).
Proof. rewrite (rsum_split 1 n). simpl. lra. Qed.
Lemma rsum_abs n f : Rabs (rsum n f) <= rsum n (fun i => Rabs (f i)).
Proof.
  induction n; simpl; [rewrite Rabs_R0; lra|]. eapply Rle_trans; [apply Rabs_triang|]. lra.
Qed.

Lemma lsum_app l l' : lsum (l ++ l') = lsum l + lsum l'.
Proof. induction l; simpl; [lra|rewrite IHl; lra]. Qed.
Lemma lsum_map_ext {A} (f g : A -> R) l : (forall a, In a l -> f a = g a) -> lsum (map f l) = lsum (map g l).
Proof. intros H. f_equal. now apply map_ext_in. Qed.
Lemma lsum_map_plus {A} (f g : A -> R) l : lsum (map (fun a => f a + g a) l) = lsum (map f l) + lsum (map g l).
Proof. induction l; simpl; [lra|rewrite IHl; lra]. Qed.
Lemma lsum_map_scal {A} c (f : A -> R) l : lsum (map (fun a => c * f a) l) = c * lsum (map f l).
Proof. induction l; simpl; [lra|rewrite IHl; lra]. Qed.
Lemma lsum_map_scal_r {A} c (f : A -> R) l : lsum (map (fun a => f a * c) l) = lsum (map f l) * c.
Proof. induction l; simpl; [lra|rewrite IHl; lra]. Qed.
Lemma lsum_const {A} c (l : list A) : lsum (map (fun _ => c) l) = INR (length l) * c.
Proof. induction l; [simpl; lra|]. cbn [map lsum length]. rewrite IHl, S_INR; lra. Qed.
Lemma lsum_nonneg l : Forall (fun x => 0 <= x) l -> 0 <= lsum l.
Proof. induction 1; simpl; lra. Qed.
Lemma lsum_rsum {A} (l : list A) p (F : A -> nat -> R) :
  lsum (map (fun a => rsum p (F a)) l) = rsum p (fun i => lsum (map (fun a => F a i) l)).
Proof.
  induction l; simpl; [now rewrite rsum_0|]. rewrite IHl, <- rsum_plus. reflexivity.
Qed.
Lemma lsum_permutation l l' : Permutation l l' -> lsum l = lsum l'.
Proof. induction 1; simpl; lra. Qed.

(** ** Matrices as functions *)
Definition rmat := nat -> nat -> R.
Definition rmul (n : nat) (A B : rmat) : rmat := fun i j => rsum n (fun k => A i k * B k j).
Definition rT (A : rmat) : rmat := fun i j => A j i.
Definition rI : rmat := fun i j => if Nat.eqb i j then 1 else 0.
Definition rdiag (d : nat -> R) : rmat := fun i j => if Nat.eqb i j then d i else 0.
Definition rapp (n : nat) (A : rmat) (v : nat -> R) : nat -> R := fun i => rsum n (fun j => A i j * v j).
Definition rdot (n : nat) (u v : nat -> R) : R := rsum n (fun i => u i * v i).
Definition meq (n m : nat) (A B : rmat) : Prop := forall i j, (i < n)%nat -> (j < m)%nat -> A i j = B i j.
Definition rtrace (n : nat) (A : rmat) : R := rsum n (fun i => A i i).

Lemma meq_refl n m A : meq n m A A. Proof. intros i j _ _; reflexivity. Qed.
Lemma meq_sym n m A B : meq n m A B -> meq n m B A.
Proof. intros H i j Hi Hj. symmetry. auto. Qed.
Lemma meq_trans n m A B C : meq n m A B -> meq n m B C -> meq n m A C.
Proof. intros H1 H2 i j Hi Hj. rewrite H1; auto. Qed.

Lemma rmul_ext n p q A A' B B' : meq p n A A' -> meq n q B B' -> meq p q (rmul n A B) (rmul n A' B').
Proof.
  intros H1 H2 i j Hi Hj. unfold rmul. apply rsum_ext. intros k Hk. rewrite H1, H2; auto.
Qed.
Lemma rmul_assoc n m A B C : forall i j, rmul m (rmul n A B) C i j = rmul n A (rmul m B C) i j.
Proof.
  intros i j. unfold rmul.
  rewrite (rsum_ext m _ (fun k => rsum n (fun l => A i l * B l k * C k j))).
  2:{ intros k _. rewrite <- rsum_scal_r. reflexivity. }
  rewrite rsum_swap. apply rsum_ext. intros l _. rewrite <- rsum_scal. apply rsum_ext. intros; lra.
Qed.
Lemma rmul_I_l n A : forall i j, (i < n)%nat -> rmul n rI A i j = A i j.
Proof.
  intros i j Hi. unfold rmul, rI. rewrite (rsum_ext n _ (fun k => if Nat.eqb i k then A k j else 0)).
  - now rewrite (rsum_delta' n i (fun k => A k j)).
  - intros k _. destruct (Nat.eqb i k); lra.
Qed.
Lemma rmul_I_r n A : forall i j, (j < n)%nat -> rmul n A rI i j = A i j.
Proof.
  intros i j Hj. unfold rmul, rI. rewrite (rsum_ext n _ (fun k => if Nat.eqb k j then A i k else 0)).
  - now rewrite (rsum_delta n j (fun k => A i k)).
  - intros k _. destruct (Nat.eqb k j); lra.
Qed.
Lemma rT_rmul n A B i j : rT (rmul n A B) i j = rmul n (rT B) (rT A) i j.
Proof. unfold rT, rmul. apply rsum_ext. intros; lra. Qed.

Definition sym (n : nat) (A : rmat) : Prop := forall i j, (i < n)%nat -> (j < n)%nat -> A i j = A j i.
(** v^T A v *)
Definition qf (n : nat) (A : rmat) (v : nat -> R) : R := rsum n (fun i => rsum n (fun j => v i * A i j * v j)).
Definition psd (n : nat) (A : rmat) : Prop := sym n A /\ forall v, 0 <= qf n A v.
(** positive definite: v^T A v > 0 for every v that is not zero on the first n coordinates *)
Definition pd (n : nat) (A : rmat) : Prop :=
  sym n A /\ forall v, (exists i, (i < n)%nat /\ v i <> 0) -> 0 < qf n A v.

Lemma qf_ext n A B v w : meq n n A B -> (forall i, (i < n)%nat -> v i = w i) -> qf n A v = qf n B w.
Proof.
  intros H1 H2. unfold qf. apply rsum_ext. intros i Hi. apply rsum_ext. intros j Hj.
  rewrite H1, (H2 i Hi), (H2 j Hj); auto.
Qed.
Lemma qf_plus n A B v : qf n (fun i j => A i j + B i j) v = qf n A v + qf n B v.
Proof.
  unfold qf. rewrite <- rsum_plus. apply rsum_ext. intros i _. rewrite <- rsum_plus. apply rsum_ext. intros; lra.
Qed.
Lemma qf_scal n c A v : qf n (fun i j => c * A i j) v = c * qf n A v.
Proof.
  unfold qf. rewrite <- rsum_scal. apply rsum_ext. intros i _. rewrite <- rsum_scal. apply rsum_ext. intros; lra.
Qed.
Lemma qf_outer n a v : qf n (fun i j => a i * a j) v = (rdot n a v) ^ 2.
Proof.
  unfold qf, rdot. simpl. rewrite Rmult_1_r, <- rsum_scal_r. apply rsum_ext. intros i _.
  rewrite <- rsum_scal. apply rsum_ext. intros; lra.
Qed.
Lemma qf_diag n d v : qf n (rdiag d) v = rsum n (fun i => d i * v i ^ 2).
Proof.
  unfold qf, rdiag. apply rsum_ext. intros i Hi.
  rewrite (rsum_ext n _ (fun j => if Nat.eqb i j then v i * d i * v j else 0)).
  - rewrite (rsum_delta' n i (fun j => v i * d i * v j) Hi). ring.
  - intros j _. destruct (Nat.eqb i j); lra.
Qed.
Lemma qf_app n A v : qf n A v = rdot n v (rapp n A v).
Proof.
  unfold qf, rdot, rapp. apply rsum_ext. intros i _. rewrite <- rsum_scal. apply rsum_ext. intros; lra.
Qed.

Lemma psd_ext n A B : meq n n A B -> psd n A -> psd n B.
Proof.
  intros H [S Q]. split.
  - intros i j Hi Hj. rewrite <- !H by auto. auto.
  - intros v. rewrite <- (qf_ext n A B v v H); auto.
Qed.
Lemma pd_ext n A B : meq n n A B -> pd n A -> pd n B.
Proof.
  intros H [S Q]. split.
  - intros i j Hi Hj. rewrite <- !H by auto. auto.
  - intros v Hv. rewrite <- (qf_ext n A B v v H); auto.
Qed.
Lemma nz_dec n (v : nat -> R) : (exists i, (i < n)%nat /\ v i <> 0) \/ (forall i, (i < n)%nat -> v i = 0).
Proof.
  induction n.
  - right. intros; lia.
  - destruct IHn as [(i & Hi & H)|H].
    + left. exists i. split; auto.
    + destruct (Req_dec (v n) 0).
      * right. intros i Hi. destruct (Nat.eq_dec i n); [now subst|apply H; lia].
      * left. exists n. auto.
Qed.
Lemma qf_zero n A v : (forall i, (i < n)%nat -> v i = 0) -> qf n A v = 0.
Proof.
  intros H. unfold qf. apply rsum_zero. intros i Hi. apply rsum_zero. intros j Hj. rewrite (H i Hi). lra.
Qed.
Lemma pd_psd n A : pd n A -> psd n A.
Proof.
  intros [S Q]. split; auto. intros v. destruct (nz_dec n v) as [H|H].
  - left. auto.
  - rewrite qf_zero; auto. lra.
Qed.
Lemma psd_plus n A B : psd n A -> psd n B -> psd n (fun i j => A i j + B i j).
Proof.
  intros [S1 Q1] [S2 Q2]. split.
  - intros i j Hi Hj. rewrite (S1 i j), (S2 i j); auto.
  - intros v. rewrite qf_plus. specialize (Q1 v). specialize (Q2 v). lra.
Qed.
Lemma psd_scal n c A : 0 <= c -> psd n A -> psd n (fun i j => c * A i j).
Proof.
  intros Hc [S Q]. split.
  - intros i j Hi Hj. rewrite (S i j); auto.
  - intros v. rewrite qf_scal. apply Rmult_le_pos; auto.
Qed.
Lemma psd_outer n a : psd n (fun i j => a i * a j).
Proof.
  split.
  - intros i j _ _. lra.
  - intros v. rewrite qf_outer. apply pow2_ge_0.
Qed.
Lemma psd_diag n d : (forall i, (i < n)%nat -> 0 <= d i) -> psd n (rdiag d).
Proof.
  intros H. split.
  - intros i j _ _. unfold rdiag. rewrite (Nat.eqb_sym j i). destruct (Nat.eqb_spec i j); subst; auto.
  - intros v. rewrite qf_diag. apply rsum_nonneg. intros i Hi. apply Rmult_le_pos; auto. apply pow2_ge_0.
Qed.
Lemma psd_zero n : psd n (fun _ _ => 0).
Proof.
  split; [intros i j _ _; reflexivity|]. intros v. unfold qf.
  rewrite rsum_zero; [lra|]. intros. apply rsum_zero. intros; lra.
Qed.
Lemma psd_I n : psd n rI.
Proof.
  apply (psd_ext n (rdiag (fun _ => 1))); [intros i j _ _; reflexivity|]. apply psd_diag. intros; lra.
Qed.
(** congruence by a diagonal: d_i A_ij d_j *)
Lemma psd_congr_diag n A d : psd n A -> psd n (fun i j => A i j * (d i * d j)).
Proof.
  intros [S Q]. split.
  - intros i j Hi Hj. rewrite (S i j); auto. lra.
  - intros v. replace (qf n (fun i j => A i j * (d i * d j)) v) with (qf n A (fun i => v i * d i)); auto.
    unfold qf. apply rsum_ext. intros i _. apply rsum_ext. intros; lra.
Qed.
(** the quadratic form of B A B^T *)
Lemma qf_congr n m (B A : rmat) v :
  qf n (fun i j => rsum m (fun k => rsum m (fun l => B i k * A k l * B j l))) v =
  qf m A (fun k => rsum n (fun i => v i * B i k)).
Proof.
  unfold qf.
  transitivity (rsum n (fun i => rsum m (fun k => rsum n (fun j => rsum m (fun l => v i * B i k * A k l * (v j * B j l)))))).
  - apply rsum_ext. intros i _. rewrite rsum_swap. apply rsum_ext. intros j _.
    rewrite <- rsum_scal, <- rsum_scal_r. apply rsum_ext. intros k _.
    rewrite <- rsum_scal, <- rsum_scal_r. apply rsum_ext. intros; lra.
  - rewrite rsum_swap. apply rsum_ext. intros k _.
    rewrite (rsum_ext n _ (fun i => rsum m (fun l => rsum n (fun j => v i * B i k * A k l * (v j * B j l)))))
      by (intros i _; apply rsum_swap).
    rewrite rsum_swap. apply rsum_ext. intros l _.
    rewrite <- !rsum_scal_r. apply rsum_ext. intros i _. rewrite <- rsum_scal. apply rsum_ext. intros; lra.
Qed.

(** 2x2 Cauchy-Schwarz: entries of a psd matrix *)
Lemma qf_two n A i j a b : (i < n)%nat -> (j < n)%nat -> i <> j ->
  qf n A (fun k => if Nat.eqb k i then a else if Nat.eqb k j then b else 0) =
  a * a * A i i + a * b * A i j + b * a * A j i + b * b * A j j.
Proof.
  intros Hi Hj Hij. unfold qf.
  assert (K : forall g, rsum n (fun k => (if Nat.eqb k i then a else if Nat.eqb k j then b else 0) * g k) = a * g i + b * g j).
  { intros g. rewrite (rsum_ext n _ (fun k => (if Nat.eqb k i then a * g k else 0) + (if Nat.eqb k j then b * g k else 0))).
    - rewrite rsum_plus, (rsum_delta n i (fun k => a * g k)), (rsum_delta n j (fun k => b * g k)); auto.
    - intros k _. destruct (Nat.eqb_spec k i), (Nat.eqb_spec k j); subst; try lra. congruence. }
  set (w := fun k => if Nat.eqb k i then a else if Nat.eqb k j then b else 0).
  transitivity (rsum n (fun k => w k * rsum n (fun l => w l * A k l))).
  - apply rsum_ext. intros k _. rewrite <- rsum_scal. apply rsum_ext. intros l _. unfold w. ring.
  - unfold w. rewrite K, !K. lra.
Qed.
Lemma qf_unit n A i : (i < n)%nat -> qf n A (fun k => if Nat.eqb k i then 1 else 0) = A i i.
Proof.
  intros Hi. unfold qf.
  rewrite (rsum_ext n _ (fun k => if Nat.eqb k i then A k i else 0)).
  - now rewrite (rsum_delta n i (fun k => A k i)).
  - intros k _. rewrite (rsum_ext n _ (fun l => if Nat.eqb l i then (if Nat.eqb k i then 1 else 0) * A k l else 0)).
    + rewrite (rsum_delta n i (fun l => (if Nat.eqb k i then 1 else 0) * A k l)); auto. destruct (Nat.eqb k i); lra.
    + intros l _. destruct (Nat.eqb l i); lra.
Qed.
Lemma psd_diag_nonneg n A i : psd n A -> (i < n)%nat -> 0 <= A i i.
Proof. intros [_ Q] Hi. rewrite <- (qf_unit n A i Hi). auto. Qed.
Lemma pd_diag_pos n A i : pd n A -> (i < n)%nat -> 0 < A i i.
Proof.
  intros [_ Q] Hi. rewrite <- (qf_unit n A i Hi). apply Q. exists i. split; auto. rewrite Nat.eqb_refl. lra.
Qed.
Lemma quad_disc a b c : 0 <= a -> 0 <= c -> (forall s t, 0 <= s * s * a + 2 * (s * t * b) + t * t * c) -> b * b <= a * c.
Proof.
  intros Ha Hc H. destruct (Req_dec a 0) as [->|Na].
  - assert (b = 0).
    { destruct (Req_dec b 0) as [|Nb]; auto. exfalso.
      pose proof (H (- (c + 1) / b) 1) as K.
      replace (-(c + 1) / b * (-(c + 1) / b) * 0 + 2 * (-(c + 1) / b * 1 * b) + 1 * 1 * c) with (- c - 2) in K
        by (field; auto). lra. }
    subst. lra.
  - pose proof (H (- b) a) as H1.
    assert (0 <= a * (a * c - b * b)) by lra.
    assert (0 <= a * c - b * b); [|lra].
    apply Rmult_le_reg_l with a; lra.
Qed.
Lemma psd_cauchy n A i j : psd n A -> (i < n)%nat -> (j < n)%nat -> A i j * A i j <= A i i * A j j.
Proof.
  intros HA Hi Hj. destruct (Nat.eq_dec i j) as [->|Hij]; [lra|].
  apply quad_disc; eauto using psd_diag_nonneg.
  intros s t. destruct HA as [S Q].
  specialize (Q (fun k => if Nat.eqb k i then s else if Nat.eqb k j then t else 0)).
  rewrite qf_two in Q by auto. rewrite (S j i) in Q by auto. lra.
Qed.
Lemma rdot_cauchy n u v : rdot n u v ^ 2 <= rdot n u u * rdot n v v.
Proof.
  replace (rdot n u v ^ 2) with (rdot n u v * rdot n u v) by ring.
  apply quad_disc; try (apply rsum_nonneg; intros; nra).
  intros s t.
  replace (s * s * rdot n u u + 2 * (s * t * rdot n u v) + t * t * rdot n v v)
    with (rsum n (fun i => (s * u i + t * v i) * (s * u i + t * v i))).
  - apply rsum_nonneg. intros; apply Rle_0_sqr.
  - unfold rdot. rewrite <- !rsum_scal, <- !rsum_plus. apply rsum_ext. intros; ring.
Qed.

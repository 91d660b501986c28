(** * The spectral theorem for real symmetric matrices (proof infrastructure)

    Existence of an eigenvector: a maximiser of x^T A x - |x|^4/2, found with one-dimensional extreme
    values only (a Lipschitz function on a box attains its maximum, by induction on the dimension). *)
From Coq Require Import Reals List Lia Lra Arith.
From Verif Require Import RMat LinSpec.
Local Open Scope R_scope.

(** ** Lipschitz functions on a box *)
Definition box (B : R) (n : nat) (x : nat -> R) : Prop := forall i, (i < n)%nat -> - B <= x i <= B.
Definition dist1 (n : nat) (x y : nat -> R) : R := rsum n (fun i => Rabs (x i - y i)).
Definition Lip (B : R) (n : nat) (f : (nat -> R) -> R) : Prop :=
  exists K, 0 <= K /\ forall x y, box B n x -> box B n y -> Rabs (f x - f y) <= K * dist1 n x y.
Lemma dist1_nonneg n x y : 0 <= dist1 n x y.
Proof. apply rsum_nonneg. intros. apply Rabs_pos. Qed.
Definition upd (y : nat -> R) (n : nat) (t : R) : nat -> R := fun i => if Nat.eqb i n then t else y i.
Lemma dist1_upd n x y s t : dist1 (S n) (upd x n s) (upd y n t) = dist1 n x y + Rabs (s - t).
Proof.
  unfold dist1. cbn [rsum]. f_equal.
  - apply rsum_ext. intros i Hi. unfold upd. destruct (Nat.eqb_spec i n); [lia|reflexivity].
  - unfold upd. now rewrite Nat.eqb_refl.
Qed.
Lemma box_upd B n y t : box B n y -> - B <= t <= B -> box B (S n) (upd y n t).
Proof. intros H Ht i Hi. unfold upd. destruct (Nat.eqb_spec i n); auto. apply H. lia. Qed.

Lemma lip_max B n : 0 <= B -> forall f, Lip B n f -> exists x, box B n x /\ forall y, box B n y -> f y <= f x.
Proof.
  intros HB. induction n as [|n IH]; intros f (K & HK & HL).
  - exists (fun _ => 0). split; [intros i Hi; lia|]. intros y Hy.
    specialize (HL y (fun _ => 0) Hy ltac:(intros i Hi; lia)). unfold dist1 in HL. simpl in HL.
    rewrite Rmult_0_r in HL. pose proof (Rabs_pos (f y - f (fun _ => 0))).
    assert (f y - f (fun _ => 0) <= Rabs (f y - f (fun _ => 0))) by apply Rle_abs. lra.
  - set (cl := fun t => Rmax (- B) (Rmin B t)).
    assert (Hcl : forall t, - B <= cl t <= B).
    { intros t. unfold cl, Rmax, Rmin. destruct (Rle_dec B t), (Rle_dec _ _); lra. }
    assert (Hcl1 : forall s t, Rabs (cl s - cl t) <= Rabs (s - t)).
    { intros s t. unfold cl, Rmax, Rmin.
      destruct (Rle_dec B s), (Rle_dec B t); repeat destruct (Rle_dec _ _); unfold Rabs; repeat destruct (Rcase_abs _); lra. }
    assert (Hid : forall t, - B <= t <= B -> cl t = t).
    { intros t Ht. unfold cl. rewrite Rmin_right by lra. apply Rmax_right. lra. }
    assert (HM : forall t, exists x, box B n x /\ forall y, box B n y -> f (upd y n (cl t)) <= f (upd x n (cl t))).
    { intros t. apply (IH (fun y => f (upd y n (cl t)))). exists K. split; auto. intros x y Hx Hy.
      eapply Rle_trans; [apply HL; apply box_upd; auto|]. rewrite dist1_upd.
      unfold Rminus. rewrite Rplus_opp_r, Rabs_R0. lra. }
    set (E := fun t v => exists y, box B n y /\ v = f (upd y n (cl t))).
    assert (Eb : forall t, bound (E t)).
    { intros t. destruct (HM t) as (x & _ & Hx). exists (f (upd x n (cl t))). intros v (y & Hy & ->). auto. }
    assert (En : forall t, exists v, E t v).
    { intros t. destruct (HM t) as (x & Hx & _). exists (f (upd x n (cl t))). exists x. auto. }
    set (g := fun t => proj1_sig (completeness (E t) (Eb t) (En t))).
    assert (Hg : forall t x, box B n x -> (forall y, box B n y -> f (upd y n (cl t)) <= f (upd x n (cl t))) ->
                 g t = f (upd x n (cl t))).
    { intros t x Hx Hm. unfold g. destruct (completeness _ _ _) as (m & Hub & Hl). simpl. apply Rle_antisym.
      - apply Hl. intros v (y & Hy & ->). auto.
      - apply Hub. exists x. auto. }
    assert (Hgl : forall s t, g s - g t <= K * Rabs (s - t)).
    { intros s t. destruct (HM s) as (x & Hx & Hmx). destruct (HM t) as (y & Hy & Hmy).
      rewrite (Hg s x), (Hg t y) by auto.
      assert (f (upd x n (cl s)) - f (upd x n (cl t)) <= K * Rabs (s - t)).
      { eapply Rle_trans; [apply Rle_abs|]. eapply Rle_trans; [apply HL; apply box_upd; auto|].
        rewrite dist1_upd. replace (dist1 n x x) with 0.
        - rewrite Rplus_0_l. apply Rmult_le_compat_l; auto.
        - symmetry. apply rsum_zero. intros. unfold Rminus. now rewrite Rplus_opp_r, Rabs_R0. }
      specialize (Hmy x Hx). lra. }
    destruct (continuity_ab_maj g (- B) B) as (ts & Hts & Hts'); [lra| |].
    + intros c _. intros eps He. exists (eps / (K + 1)). split.
      * apply Rdiv_lt_0_compat; lra.
      * intros x [_ Hd]. simpl in *. unfold R_dist in *.
        assert (Rabs (g x - g c) <= K * Rabs (x - c)).
        { apply Rabs_le. pose proof (Hgl x c). pose proof (Hgl c x). rewrite (Rabs_minus_sym c x) in H0. lra. }
        apply Rle_lt_trans with (K * Rabs (x - c)); auto.
        assert (0 <= Rabs (x - c)) by apply Rabs_pos.
        apply Rle_lt_trans with ((K + 1) * Rabs (x - c)); [nra|].
        apply Rlt_le_trans with ((K + 1) * (eps / (K + 1))); [apply Rmult_lt_compat_l; lra|].
        right. field. lra.
    + destruct (HM ts) as (x & Hx & Hm). exists (upd x n (cl ts)). split; [apply box_upd; auto|].
      intros y Hy. rewrite <- (Hg ts x Hx Hm).
      assert (Hyn : - B <= y n <= B) by (apply Hy; lia).
      destruct (HM (y n)) as (z & Hz & Hmz). specialize (Hts (y n) Hyn). rewrite (Hg (y n) z Hz Hmz) in Hts.
      assert (Hy' : box B n y) by (intros i Hi; apply Hy; lia).
      specialize (Hmz y Hy'). rewrite (Hid (y n) Hyn) in *.
      assert (Ey : f y = f (upd y n (y n))).
      { assert (B1 : box B (S n) (upd y n (y n))) by (apply box_upd; auto).
        specialize (HL y (upd y n (y n)) Hy B1).
        replace (dist1 (S n) y (upd y n (y n))) with 0 in HL.
        - rewrite Rmult_0_r in HL. pose proof (Rabs_pos (f y - f (upd y n (y n)))).
          destruct (Req_dec (f y - f (upd y n (y n))) 0) as [E0|E0]; [lra|]. apply Rabs_pos_lt in E0. lra.
        - symmetry. apply rsum_zero. intros i Hi. unfold upd. destruct (Nat.eqb_spec i n); subst;
            unfold Rminus; now rewrite Rplus_opp_r, Rabs_R0. }
      rewrite Ey. lra.
Qed.

Lemma Lip_const B n c : Lip B n (fun _ => c).
Proof. exists 0. split; [lra|]. intros. unfold Rminus. rewrite Rplus_opp_r, Rabs_R0. lra. Qed.
Lemma Lip_coord B n i : (i < n)%nat -> Lip B n (fun x => x i).
Proof.
  intros Hi. exists 1. split; [lra|]. intros x y _ _. rewrite Rmult_1_l.
  apply (rsum_ge_term n (fun i => Rabs (x i - y i)) i); auto. intros. apply Rabs_pos.
Qed.
Lemma Lip_plus B n f g : Lip B n f -> Lip B n g -> Lip B n (fun x => f x + g x).
Proof.
  intros (K & HK & HL) (K' & HK' & HL'). exists (K + K'). split; [lra|]. intros x y Hx Hy.
  replace (f x + g x - (f y + g y)) with ((f x - f y) + (g x - g y)) by ring.
  eapply Rle_trans; [apply Rabs_triang|]. specialize (HL x y Hx Hy). specialize (HL' x y Hx Hy). lra.
Qed.
Lemma Lip_bounded B n f : 0 <= B -> Lip B n f -> exists M, 0 <= M /\ forall x, box B n x -> Rabs (f x) <= M.
Proof.
  intros HB (K & HK & HL). exists (Rabs (f (fun _ => 0)) + K * (INR n * B)). split.
  - apply Rplus_le_le_0_compat; [apply Rabs_pos|]. apply Rmult_le_pos; auto. apply Rmult_le_pos; auto. apply pos_INR.
  - intros x Hx. replace (f x) with (f (fun _ => 0) + (f x - f (fun _ => 0))) by ring.
    eapply Rle_trans; [apply Rabs_triang|]. apply Rplus_le_compat_l.
    eapply Rle_trans; [apply HL; auto; intros i Hi; lra|]. apply Rmult_le_compat_l; auto.
    unfold dist1. rewrite <- rsum_const. apply rsum_le. intros i Hi. specialize (Hx i Hi).
    rewrite Rminus_0_r. apply Rabs_le. lra.
Qed.
Lemma Lip_mult B n f g : 0 <= B -> Lip B n f -> Lip B n g -> Lip B n (fun x => f x * g x).
Proof.
  intros HB Hf Hg. destruct (Lip_bounded B n f HB Hf) as (M & HM & Hm). destruct (Lip_bounded B n g HB Hg) as (M' & HM' & Hm').
  destruct Hf as (K & HK & HL), Hg as (K' & HK' & HL'). exists (M * K' + M' * K). split.
  - apply Rplus_le_le_0_compat; apply Rmult_le_pos; auto.
  - intros x y Hx Hy. replace (f x * g x - f y * g y) with (f x * (g x - g y) + g y * (f x - f y)) by ring.
    eapply Rle_trans; [apply Rabs_triang|]. rewrite !Rabs_mult.
    specialize (HL x y Hx Hy). specialize (HL' x y Hx Hy). specialize (Hm x Hx). specialize (Hm' y Hy).
    pose proof (dist1_nonneg n x y).
    assert (Rabs (f x) * Rabs (g x - g y) <= M * (K' * dist1 n x y)) by (apply Rmult_le_compat; auto using Rabs_pos).
    assert (Rabs (g y) * Rabs (f x - f y) <= M' * (K * dist1 n x y)) by (apply Rmult_le_compat; auto using Rabs_pos).
    lra.
Qed.
Lemma Lip_rsum B n k (f : nat -> (nat -> R) -> R) : (forall i, (i < k)%nat -> Lip B n (f i)) -> Lip B n (fun x => rsum k (fun i => f i x)).
Proof.
  induction k; intros H; cbn [rsum]; [apply Lip_const|]. apply Lip_plus; auto.
Qed.
Lemma Lip_ext B n f g : (forall x, f x = g x) -> Lip B n f -> Lip B n g.
Proof. intros H (K & HK & HL). exists K. split; auto. intros. rewrite <- !H. auto. Qed.

(** ** An eigenvector with positive eigenvalue *)
Definition asum (n : nat) (A : rmat) : R := rsum n (fun i => rsum n (fun j => Rabs (A i j))).
Lemma asum_nonneg n A : 0 <= asum n A.
Proof. apply rsum_nonneg. intros. apply rsum_nonneg. intros. apply Rabs_pos. Qed.
Lemma rdot_nonneg n v : 0 <= rdot n v v.
Proof. apply rsum_nonneg. intros. apply Rle_0_sqr. Qed.
Lemma rdot_ge n v i : (i < n)%nat -> v i * v i <= rdot n v v.
Proof. intros H. apply (rsum_ge_term n (fun i => v i * v i) i); auto. intros. apply Rle_0_sqr. Qed.
Lemma qf_abs n A v : Rabs (qf n A v) <= asum n A * rdot n v v.
Proof.
  unfold qf, asum. eapply Rle_trans; [apply rsum_abs|]. rewrite <- rsum_scal_r. apply rsum_le. intros i Hi.
  eapply Rle_trans; [apply rsum_abs|]. rewrite <- rsum_scal_r. apply rsum_le. intros j Hj.
  rewrite !Rabs_mult. replace (Rabs (v i) * Rabs (A i j) * Rabs (v j)) with (Rabs (A i j) * (Rabs (v i) * Rabs (v j))) by ring.
  apply Rmult_le_compat_l; [apply Rabs_pos|]. rewrite <- Rabs_mult.
  pose proof (rdot_ge n v i Hi). pose proof (rdot_ge n v j Hj).
  pose proof (Rle_0_sqr (v i - v j)). pose proof (Rle_0_sqr (v i + v j)). unfold Rsqr in *. apply Rabs_le. lra.
Qed.
Lemma poly_lin_zero a b c d : (forall t, a * t + b * (t * t) + c * (t * t * t) + d * (t * t * t * t) <= 0) -> a = 0.
Proof.
  intros H. destruct (Req_dec a 0) as [|Ha]; auto. exfalso.
  set (M := Rabs b + Rabs c + Rabs d + 1).
  assert (HM : 1 <= M) by (unfold M; pose proof (Rabs_pos b); pose proof (Rabs_pos c); pose proof (Rabs_pos d); lra).
  assert (Pa : 0 < Rabs a) by now apply Rabs_pos_lt.
  set (e := Rmin 1 (Rabs a / (2 * M))).
  assert (He : 0 < e <= 1).
  { unfold e. split; [apply Rmin_glb_lt; [lra|apply Rdiv_lt_0_compat; lra]|apply Rmin_l]. }
  assert (He2 : e * M <= Rabs a / 2).
  { apply Rle_trans with (Rabs a / (2 * M) * M); [apply Rmult_le_compat_r; [lra|apply Rmin_r]|]. right. field. lra. }
  set (t := if Rle_dec 0 a then e else - e).
  assert (Ht : a * t = Rabs a * e). { unfold t. destruct (Rle_dec 0 a); [rewrite Rabs_right by lra|rewrite Rabs_left by lra]; ring. }
  assert (Htt : t * t = e * e) by (unfold t; destruct (Rle_dec 0 a); ring).
  specialize (H t). rewrite Ht, Htt in H.
  assert (Tb : - (Rabs b * (e * e)) <= b * (e * e)).
  { assert (- Rabs b <= b) by (unfold Rabs; destruct (Rcase_abs b); lra). assert (0 <= e * e) by apply Rle_0_sqr. nra. }
  assert (Te : Rabs t = e) by (unfold t; destruct (Rle_dec 0 a); [apply Rabs_right; lra|rewrite Rabs_Ropp; apply Rabs_right; lra]).
  assert (Tc : - (Rabs c * (e * e)) <= c * (e * e * t)).
  { assert (Rabs (c * (e * e * t)) <= Rabs c * (e * e)).
    { rewrite !Rabs_mult, Te, (Rabs_right e) by lra. apply Rmult_le_compat_l; [apply Rabs_pos|]. nra. }
    pose proof (Rle_abs (- (c * (e * e * t)))). rewrite Rabs_Ropp in H1. lra. }
  assert (Td : - (Rabs d * (e * e)) <= d * (e * e * t * t)).
  { replace (e * e * t * t) with (e * e * (e * e)) by (rewrite <- Htt at 2; ring).
    assert (- Rabs d <= d) by (unfold Rabs; destruct (Rcase_abs d); lra).
    assert (E2 : 0 <= e * e <= 1) by nra. pose proof (Rabs_pos d) as Pd. clearbody e t M. clear Tb Tc H HM He2 Ht.
    set (q := e * e) in *. clearbody q.
    assert (d * (q * q) >= - Rabs d * (q * q)) by (assert (0 <= q * q) by nra; nra).
    assert (q * q <= q) by nra. assert (Rabs d * (q * q) <= Rabs d * q) by (apply Rmult_le_compat_l; auto). lra. }
  assert (Rabs a * e <= (M - 1) * (e * e)) by (unfold M; lra).
  assert (Rabs a <= (M - 1) * e) by (apply Rmult_le_reg_r with e; [lra|]; nra).
  nra.
Qed.
Lemma qf_add n A x v t : sym n A ->
  qf n A (fun i => x i + t * v i) = qf n A x + 2 * t * rdot n v (rapp n A x) + t * t * qf n A v.
Proof.
  intros HS.
  assert (E : qf n A (fun i => x i + t * v i) =
    qf n A x + t * rdot n x (rapp n A v) + t * rdot n v (rapp n A x) + t * t * qf n A v).
  { unfold qf, rdot, rapp. rewrite <- !rsum_scal. rewrite <- !rsum_plus. apply rsum_ext. intros i Hi.
    rewrite <- !rsum_scal. rewrite <- !rsum_plus. apply rsum_ext. intros j Hj. ring. }
  rewrite E. replace (rdot n x (rapp n A v)) with (rdot n v (rapp n A x)); [ring|].
  unfold rdot, rapp. rewrite (rsum_ext n (fun i => v i * rsum n (fun j => A i j * x j)) (fun i => rsum n (fun j => v i * (A i j * x j))))
    by (intros; now rewrite rsum_scal).
  rewrite rsum_swap. apply rsum_ext. intros i Hi. rewrite <- rsum_scal. apply rsum_ext. intros j Hj.
  rewrite (HS j i) by auto. ring.
Qed.
Lemma rdot_add n x v t : rdot n (fun i => x i + t * v i) (fun i => x i + t * v i) =
  rdot n x x + 2 * t * rdot n x v + t * t * rdot n v v.
Proof. unfold rdot. rewrite <- !rsum_scal. rewrite <- !rsum_plus. apply rsum_ext. intros. ring. Qed.
Lemma rdot_e n v i : (i < n)%nat -> rdot n (fun j => if Nat.eqb j i then 1 else 0) v = v i.
Proof.
  intros Hi. unfold rdot. rewrite <- (rsum_delta n i v Hi). apply rsum_ext. intros k _. destruct (Nat.eqb k i); ring.
Qed.
Lemma rdot_comm n u v : rdot n u v = rdot n v u.
Proof. unfold rdot. apply rsum_ext. intros; ring. Qed.

Lemma eigen_pos n A v : sym n A -> 0 < qf n A v ->
  exists x mu, 0 < mu /\ rdot n x x = mu /\ forall i, (i < n)%nat -> rapp n A x i = mu * x i.
Proof.
  intros HS Hv. set (S := asum n A). assert (HS0 : 0 <= S) by apply asum_nonneg.
  set (F := fun x => qf n A x + - (1 / 2) * (rdot n x x * rdot n x x)).
  set (B := 2 * S + 1). assert (HB : 0 <= B) by (unfold B; lra).
  assert (LF : Lip B n F).
  { assert (LD : Lip B n (fun x => rdot n x x)).
    { unfold rdot. apply Lip_rsum. intros i Hi. apply Lip_mult; auto using Lip_coord. }
    apply Lip_plus.
    - unfold qf. apply Lip_rsum. intros i Hi. apply Lip_rsum. intros j Hj.
      apply Lip_mult; auto using Lip_coord. apply Lip_mult; auto using Lip_coord, Lip_const.
    - apply Lip_mult; auto using Lip_const. apply Lip_mult; auto. }
  destruct (lip_max B n HB F LF) as (x & Hx & Hmax).
  assert (F0 : F (fun _ => 0) = 0).
  { unfold F. rewrite qf_zero by auto. unfold rdot. rewrite rsum_zero by (intros; ring). ring. }
  assert (Fx0 : 0 <= F x). { rewrite <- F0. apply Hmax. intros i _. lra. }
  assert (Up : forall y, qf n A y <= S * rdot n y y).
  { intros y. eapply Rle_trans; [apply Rle_abs|]. apply qf_abs. }
  assert (G : forall y, F y <= F x).
  { intros y. destruct (Rle_dec (rdot n y y) (B * B)) as [Hy|Hy].
    - apply Hmax. intros i Hi. pose proof (rdot_ge n y i Hi).
      split; [apply Rnot_lt_le; intros L|apply Rnot_lt_le; intros L]; nra.
    - apply Rle_trans with 0; auto. unfold F. specialize (Up y). set (q := rdot n y y) in *.
      assert (B * B < q) by lra. assert (2 * S < B * B) by (unfold B; nra).
      assert (S * q <= q / 2 * q) by nra. lra. }
  assert (Fpos : 0 < F x).
  { set (a := qf n A v) in *. set (b := rdot n v v * rdot n v v). assert (Hb : 0 <= b) by apply Rle_0_sqr.
    set (s := a / (b + 1)). assert (Hs : 0 < s) by (apply Rdiv_lt_0_compat; lra).
    apply Rlt_le_trans with (F (fun i => sqrt s * v i)); [|apply G]. unfold F.
    assert (E1 : qf n A (fun i => sqrt s * v i) = s * a).
    { replace (s * a) with (sqrt s * sqrt s * a) by (now rewrite sqrt_sqrt by lra). clearbody s. unfold a, qf. rewrite <- rsum_scal. apply rsum_ext. intros i _.
      rewrite <- rsum_scal. apply rsum_ext. intros j _. ring. }
    assert (E2 : rdot n (fun i => sqrt s * v i) (fun i => sqrt s * v i) = s * rdot n v v).
    { replace (s * rdot n v v) with (sqrt s * sqrt s * rdot n v v) by (now rewrite sqrt_sqrt by lra). clearbody s. unfold rdot. rewrite <- rsum_scal. apply rsum_ext. intros i _. ring. }
    rewrite E1, E2. replace (s * rdot n v v * (s * rdot n v v)) with (s * (s * b)) by (unfold b; ring).
    assert (s * b <= a). { unfold s. apply Rmult_le_reg_r with (b + 1); [lra|]. replace (a / (b + 1) * b * (b + 1)) with (a * b) by (field; lra). nra. }
    nra. }
  set (q := rdot n x x) in *.
  assert (Hq : 0 < q).
  { destruct (Rle_lt_or_eq_dec 0 q (rdot_nonneg n x)) as [|E0]; auto. exfalso. unfold F in Fpos. specialize (Up x). fold q in Up, Fpos.
    rewrite <- E0 in *. lra. }
  exists x, q. split; auto. split; auto. intros i Hi.
  set (e := fun j => if Nat.eqb j i then 1 else 0).
  assert (H0 : 2 * rapp n A x i - 2 * q * x i = 0).
  { apply (poly_lin_zero _ (qf n A e - (rdot n e e * q + 2 * (rdot n x e * rdot n x e)))
             (- 2 * (rdot n x e * rdot n e e)) (- (1 / 2) * (rdot n e e * rdot n e e))).
    intros t. specialize (G (fun j => x j + t * e j)). unfold F in G. rewrite qf_add, rdot_add in G by auto. fold q in G.
    unfold e at 1 in G. rewrite (rdot_e n (rapp n A x) i Hi) in G.
    assert (Ex : rdot n x e = x i) by (rewrite rdot_comm; unfold e; now apply rdot_e).
    rewrite !Ex in *. set (w := rdot n e e) in *. set (Q := qf n A e) in *.
    match type of G with ?L <= ?Rr => assert (L - Rr <= 0) as G' by lra end.
    eapply Rle_trans; [|exact G']. right. field. }
  lra.
Qed.

(** ** Orthonormal eigenbasis *)
Definition ortho (n m : nat) (u : nat -> nat -> R) : Prop :=
  forall a b, (a < m)%nat -> (b < m)%nat -> rdot n (u a) (u b) = rI a b.
Definition eigs (n m : nat) (A : rmat) (u : nat -> nat -> R) (lam : nat -> R) : Prop :=
  forall a i, (a < m)%nat -> (i < n)%nat -> rapp n A (u a) i = lam a * u a i.
Definition gram (m : nat) (u : nat -> nat -> R) (i j : nat) : R := rsum m (fun a => u a i * u a j).
(** residual of the i-th basis vector *)
Definition resid (m : nat) (u : nat -> nat -> R) (i : nat) : nat -> R := fun j => rI i j - gram m u i j.
Lemma resid_ortho n m u i b : ortho n m u -> (i < n)%nat -> (b < m)%nat -> rdot n (u b) (resid m u i) = 0.
Proof.
  intros Ho Hi Hb. unfold resid, rdot.
  rewrite (rsum_ext n _ (fun j => u b j * rI i j - u b j * gram m u i j)) by (intros; ring). rewrite rsum_minus.
  rewrite (rsum_ext n (fun j => u b j * rI i j) (fun j => if Nat.eqb i j then u b j else 0))
    by (intros j _; unfold rI; destruct (Nat.eqb i j); ring).
  rewrite rsum_delta' by auto. unfold gram.
  rewrite (rsum_ext n _ (fun j => rsum m (fun a => u a i * (u b j * u a j)))) by (intros j _; rewrite <- rsum_scal; apply rsum_ext; intros; ring).
  rewrite rsum_swap.
  rewrite (rsum_ext m _ (fun a => if Nat.eqb b a then u a i else 0)).
  - rewrite rsum_delta' by auto. ring.
  - intros a Ha. rewrite rsum_scal. fold (rdot n (u b) (u a)). rewrite Ho by auto. unfold rI. destruct (Nat.eqb b a); ring.
Qed.
Lemma resid_sq n m u i : ortho n m u -> (i < n)%nat -> rdot n (resid m u i) (resid m u i) = 1 - gram m u i i.
Proof.
  intros Ho Hi.
  assert (E : rdot n (resid m u i) (resid m u i) = resid m u i i - rsum m (fun a => u a i * rdot n (u a) (resid m u i))).
  { unfold rdot at 1. rewrite (rsum_ext n _ (fun j => (if Nat.eqb i j then resid m u i j else 0) - gram m u i j * resid m u i j)).
    - rewrite rsum_minus, rsum_delta' by auto. f_equal.
      rewrite (rsum_ext m _ (fun a => rsum n (fun j => u a i * (u a j * resid m u i j)))) by (intros; unfold rdot; now rewrite rsum_scal).
      rewrite rsum_swap. apply rsum_ext. intros j _. unfold gram. rewrite <- rsum_scal_r. apply rsum_ext. intros; ring.
    - intros j _. unfold resid at 1. unfold rI. destruct (Nat.eqb i j); ring. }
  rewrite E, rsum_zero.
  - unfold resid, rI. rewrite Nat.eqb_refl. ring.
  - intros a Ha. rewrite (resid_ortho n m u i a) by auto. ring.
Qed.
Lemma gram_trace n m u : ortho n m u -> rsum n (fun i => gram m u i i) = INR m.
Proof.
  intros Ho. unfold gram. rewrite rsum_swap. rewrite (rsum_ext m _ (fun _ => 1)).
  - rewrite rsum_const. ring.
  - intros a Ha. fold (rdot n (u a) (u a)). rewrite Ho by auto. unfold rI. now rewrite Nat.eqb_refl.
Qed.
Lemma extend_eig n A m u lam : sym n A -> (m < n)%nat -> ortho n m u -> eigs n m A u lam ->
  exists u' lam', ortho n (S m) u' /\ eigs n (S m) A u' lam'.
Proof.
  intros HS Hm Ho He.
  assert (Hres : exists i, (i < n)%nat /\ 0 < 1 - gram m u i i).
  { destruct (Classical_Prop.classic (exists i, (i < n)%nat /\ 0 < 1 - gram m u i i)) as [|N]; auto. exfalso.
    assert (rsum n (fun _ => 1) <= rsum n (fun i => gram m u i i)).
    { apply rsum_le. intros i Hi. apply Rnot_lt_le. intros L. apply N. exists i. split; auto. lra. }
    rewrite (gram_trace n m u Ho), rsum_const in H. apply lt_INR in Hm. lra. }
  destruct Hres as (i0 & Hi0 & Hr). set (v := resid m u i0).
  assert (Hvv : 0 < rdot n v v) by (unfold v; rewrite resid_sq; auto).
  assert (Hvo : forall a, (a < m)%nat -> rdot n (u a) v = 0) by (intros; apply resid_ortho; auto).
  set (c := asum n A + 1).
  set (Bm := fun i j => A i j + (c * rI i j + rsum m (fun a => - (lam a + c) * (u a i * u a j)))).
  assert (SB : sym n Bm).
  { intros i j Hi Hj. unfold Bm. rewrite (HS i j Hi Hj). f_equal. f_equal.
    - unfold rI. now rewrite Nat.eqb_sym.
    - apply rsum_ext. intros; ring. }
  assert (AB : forall w i, (i < n)%nat -> rapp n Bm w i = rapp n A w i + c * w i + rsum m (fun a => - (lam a + c) * (u a i * rdot n (u a) w))).
  { intros w i Hi. unfold rapp, Bm.
    rewrite (rsum_ext n _ (fun j => A i j * w j + ((if Nat.eqb i j then c * w j else 0) + rsum m (fun a => - (lam a + c) * (u a i * (u a j * w j)))))).
    - rewrite !rsum_plus, rsum_delta' by auto. rewrite Rplus_assoc. f_equal. f_equal. rewrite rsum_swap. apply rsum_ext. intros a _.
      rewrite !rsum_scal. reflexivity.
    - intros j _. rewrite !Rmult_plus_distr_r. f_equal. f_equal.
      + unfold rI. destruct (Nat.eqb i j); ring.
      + rewrite <- rsum_scal_r. apply rsum_ext. intros; ring. }
  assert (Qv : 0 < qf n Bm v).
  { rewrite qf_app. unfold rdot. rewrite (rsum_ext n _ (fun i => v i * rapp n A v i + c * (v i * v i))).
    - rewrite rsum_plus, rsum_scal. fold (rdot n v v). fold (rdot n v (rapp n A v)). rewrite <- qf_app.
      pose proof (qf_abs n A v) as Ha. pose proof (Rle_abs (- qf n A v)) as Hb. rewrite Rabs_Ropp in Hb. unfold c. nra.
    - intros i Hi. rewrite AB by auto. rewrite rsum_zero; [ring|]. intros a Ha. rewrite Hvo by auto. ring. }
  destruct (eigen_pos n Bm v SB Qv) as (x & mu & Hmu & Hxx & Hx).
  assert (Bu : forall b i, (b < m)%nat -> (i < n)%nat -> rapp n Bm (u b) i = 0).
  { intros b i Hb Hi. rewrite AB, He by auto.
    rewrite (rsum_ext m _ (fun a => if Nat.eqb a b then - (lam a + c) * u a i else 0)).
    - rewrite rsum_delta by auto. ring.
    - intros a Ha. rewrite Ho by auto. unfold rI. destruct (Nat.eqb a b); ring. }
  assert (Xo : forall b, (b < m)%nat -> rdot n (u b) x = 0).
  { intros b Hb. assert (mu * rdot n (u b) x = 0); [|nra].
    unfold rdot. rewrite <- rsum_scal. rewrite (rsum_ext n _ (fun i => u b i * rapp n Bm x i)) by (intros i Hi; rewrite Hx by auto; ring).
    unfold rapp. rewrite (rsum_ext n _ (fun i => rsum n (fun j => x j * (Bm j i * u b i)))).
    - rewrite rsum_swap. apply rsum_zero. intros j Hj. rewrite rsum_scal. fold (rapp n Bm (u b) j). rewrite Bu by auto. ring.
    - intros i Hi. rewrite <- rsum_scal. apply rsum_ext. intros j Hj. rewrite (SB i j) by auto. ring. }
  set (s := sqrt mu). assert (Hs : 0 < s) by now apply sqrt_lt_R0. assert (Hss : s * s = mu) by (apply sqrt_sqrt; lra).
  assert (AX : forall i, (i < n)%nat -> rapp n A x i = (mu - c) * x i).
  { intros i Hi. specialize (Hx i Hi). rewrite AB in Hx by auto. rewrite rsum_zero in Hx; [lra|].
    intros a Ha. rewrite Xo by auto. ring. }
  exists (fun a => if Nat.eqb a m then (fun i => x i / s) else u a), (fun a => if Nat.eqb a m then mu - c else lam a).
  split.
  - intros a b Ha Hb. destruct (Nat.eqb_spec a m) as [->|Na], (Nat.eqb_spec b m) as [->|Nb].
    + unfold rI. rewrite Nat.eqb_refl. unfold rdot. rewrite (rsum_ext n _ (fun i => / mu * (x i * x i))).
      * rewrite rsum_scal. fold (rdot n x x). rewrite Hxx. field. lra.
      * intros. rewrite <- Hss. field. lra.
    + rewrite rdot_comm. unfold rdot. rewrite (rsum_ext n _ (fun i => / s * (u b i * x i))) by (intros; field; lra).
      rewrite rsum_scal. fold (rdot n (u b) x). rewrite Xo by lia. unfold rI. destruct (Nat.eqb_spec m b); [lia|ring].
    + unfold rdot. rewrite (rsum_ext n _ (fun i => / s * (u a i * x i))) by (intros; field; lra).
      rewrite rsum_scal. fold (rdot n (u a) x). rewrite Xo by lia. unfold rI. destruct (Nat.eqb_spec a m); [lia|ring].
    + apply Ho; lia.
  - intros a i Ha Hi. destruct (Nat.eqb_spec a m) as [->|Na].
    + unfold rapp. rewrite (rsum_ext n _ (fun j => / s * (A i j * x j))) by (intros; field; lra).
      rewrite rsum_scal. fold (rapp n A x i). rewrite AX by auto. field. lra.
    + apply He; auto. lia.
Qed.


Theorem spectral n A : sym n A -> exists U lam, eig_of n A U lam.
Proof.
  intros HS.
  assert (K : forall m, (m <= n)%nat -> exists u lam, ortho n m u /\ eigs n m A u lam).
  { induction m as [|m IH]; intros Hm.
    - exists (fun _ _ => 0), (fun _ => 0). split; intros a b Ha; lia.
    - destruct IH as (u & lam & Ho & He); [lia|]. now apply (extend_eig n A m u lam). }
  destruct (K n (Nat.le_refl n)) as (u & lam & Ho & He).
  assert (G : forall i j, (i < n)%nat -> (j < n)%nat -> gram n u i j = rI i j).
  { intros i j Hi Hj.
    assert (Z : forall i, (i < n)%nat -> rdot n (resid n u i) (resid n u i) = 0).
    { apply rsum_pos_zero; [intros; apply rdot_nonneg|].
      rewrite (rsum_ext n _ (fun i => 1 - gram n u i i)) by (intros; now apply resid_sq).
      rewrite rsum_minus, (gram_trace n n u Ho), rsum_const. ring. }
    pose proof (rsum_pos_zero n (fun j => resid n u i j * resid n u i j) ltac:(intros; apply Rle_0_sqr) (Z i Hi) j Hj) as E.
    cbv beta in E. apply Rmult_integral in E. unfold resid in E. lra. }
  exists (fun i k => u k i), lam. split; [split|].
  - intros a b Ha Hb. exact (Ho a b Ha Hb).
  - intros i j Hi Hj. exact (G i j Hi Hj).
  - intros i j Hi Hj.
    rewrite (rsum_ext n _ (fun k => rsum n (fun l => A i l * u k l) * u k j))
      by (intros k Hk; change (rsum n (fun l => A i l * u k l)) with (rapp n A (u k) i); rewrite He by auto; ring).
    rewrite (rsum_ext n _ (fun k => rsum n (fun l => A i l * (u k l * u k j)))) by (intros; rewrite <- rsum_scal_r; apply rsum_ext; intros; ring).
    rewrite rsum_swap.
    rewrite (rsum_ext n _ (fun l => if Nat.eqb l j then A i l else 0)); [now rewrite rsum_delta|].
    intros l Hl. rewrite rsum_scal. change (rsum n (fun k => u k l * u k j)) with (gram n u l j). rewrite G by auto.
    unfold rI. destruct (Nat.eqb l j); ring.
Qed.

(** * C98, continued: the delta-method variance, and the spiked truth *)
From Coq Require Import Reals ZArith List Lia Lra Arith Bool Psatz.
From Verif Require Import Num Numpy ListLemmas RMat LinSpec Fin RealSpec EwaReal EmpFacts ShrinkReal Spectral MatAlg Det Contracts LinalgReal GaussSpec GaussReal Props_Improper
  ResearchSpec ResearchReal ResearchModel Props_Research ResearchRun ResearchTwo Props_Canonical Props_ResearchBlocks ResearchOp Props_Godambe MetricReal SpikedModel Props_Spiked.
Import ListNotations.
Local Open Scope R_scope.

(** ** Variance of a linear functional of the sample covariance *)
(** [Cov(S_ij, S_kl) = (Sig_ik Sig_jl + Sig_il Sig_jk) / n] *)
Definition wishart_cov (Sig : rmat) (n : R) (i j k l : nat) : R := (Sig i k * Sig j l + Sig i l * Sig j k) / n.
(** the variance of sum_ij M_ij S_ij *)
Definition linear_variance (p : nat) (M Sig : rmat) (n : R) : R :=
  rsum p (fun i => rsum p (fun j => rsum p (fun k => rsum p (fun l => M i j * wishart_cov Sig n i j k l * M k l)))).
Lemma quad_trace p G Sig : sym p G -> sym p Sig ->
  rtrace p (rmul p (rmul p G Sig) (rmul p G Sig)) = rsum p (fun i => rsum p (fun j => rsum p (fun k => rsum p (fun l => G i j * (Sig i k * Sig j l) * G k l)))).
Proof.
  intros HG HS. unfold rtrace.
  (* tr = sum_i sum_a (sum_j G_ij Sig_ja) (sum_k G_ak Sig_ki) *)
  rewrite (rsum_ext p _ (fun i => rsum p (fun j => rsum p (fun l => rsum p (fun k => G i j * Sig j l * (G l k * Sig k i)))))).
  2:{ intros i Hi. unfold rmul at 1. rewrite (rsum_ext p _ (fun l => rsum p (fun j => rsum p (fun k => G i j * Sig j l * (G l k * Sig k i))))).
      - rewrite rsum_swap. reflexivity.
      - intros l Hl. unfold rmul. rewrite <- rsum_scal_r. apply rsum_ext. intros j Hj. now rewrite <- rsum_scal. }
  apply rsum_ext. intros i Hi. apply rsum_ext. intros j Hj. rewrite rsum_swap. apply rsum_ext. intros k Hk. apply rsum_ext. intros l Hl.
  rewrite (HG l k Hl Hk), (HS k i Hk Hi). ring.
Qed.
Lemma linear_variance_trace p G Sig n : n <> 0 -> sym p G -> sym p Sig -> linear_variance p G Sig n = 2 / n * rtrace p (rmul p (rmul p G Sig) (rmul p G Sig)).
Proof.
  intros Hn HG HS. rewrite (quad_trace p G Sig HG HS).
  assert (E : rsum p (fun i => rsum p (fun j => rsum p (fun k => rsum p (fun l => G i j * (Sig i l * Sig j k) * G k l)))) = rsum p (fun i => rsum p (fun j => rsum p (fun k => rsum p (fun l => G i j * (Sig i k * Sig j l) * G k l))))).
  { apply rsum_ext. intros i Hi. apply rsum_ext. intros j Hj. rewrite rsum_swap. apply rsum_ext. intros k Hk. apply rsum_ext. intros l Hl. now rewrite (HG l k Hl Hk). }
  unfold linear_variance, wishart_cov.
  transitivity (/ n * (rsum p (fun i => rsum p (fun j => rsum p (fun k => rsum p (fun l => G i j * (Sig i k * Sig j l) * G k l)))) + rsum p (fun i => rsum p (fun j => rsum p (fun k => rsum p (fun l => G i j * (Sig i l * Sig j k) * G k l)))))).
  { rewrite <- rsum_plus, <- rsum_scal. apply rsum_ext. intros i _. rewrite <- rsum_plus, <- rsum_scal. apply rsum_ext. intros j _. rewrite <- rsum_plus, <- rsum_scal. apply rsum_ext. intros k _. rewrite <- rsum_plus, <- rsum_scal. apply rsum_ext. intros l _. field. exact Hn. }
  rewrite E. field. exact Hn.
Qed.
(** [_cov_quadform] is that variance (both arguments symmetric); never negative for a semidefinite Sig, and for a positive definite one 0
    only at G = 0.  With no observations it raises ZeroDivisionError. *)
Theorem C98_quadform p G Sig n : (1 <= p)%nat -> n <> 0%Z -> sym p G -> sym p Sig ->
  cov_quadform (N := NumX) (fm p p G) (fm p p Sig) n = Ok (Fin (linear_variance p G Sig (IZR n))) /\
  (0 < IZR n -> psd p Sig -> 0 <= linear_variance p G Sig (IZR n)) /\
  (0 < IZR n -> pd p Sig -> (linear_variance p G Sig (IZR n) = 0 <-> meq p p G (fun _ _ => 0))).
Proof.
  intros Hp Hn HG HS. assert (Hn' : IZR n <> 0) by (intros E; apply Hn; now apply eq_IZR_R0).
  split.
  { unfold cov_quadform. rewrite matmul_fin by auto. cbn [bind]. rewrite !nofZ_fin, py_div_fin by auto. cbn [bind]. rewrite matmul_fin by auto. cbn [bind]. rewrite mtrace_fin.
    cbn [nmul NumX xmul]. now rewrite linear_variance_trace. }
  assert (PS : psd p Sig -> exists R, sym p R /\ meq p p (rmul p R R) Sig).
  { intros HP. destruct (spectral p Sig HS) as (U & lam & HE). exists (spec p U (fun k => sqrt (lam k))). split; [apply spec_sym|].
    eapply meq_trans; [apply spec_mul, HE|]. eapply meq_trans; [|apply meq_sym, (eig_spec p Sig U lam HE)]. apply spec_ext. intros k Hk. apply sqrt_sqrt. now apply (psd_eig p Sig U lam). }
  assert (TR : forall R, sym p R -> meq p p (rmul p R R) Sig ->
    rtrace p (rmul p (rmul p G Sig) (rmul p G Sig)) = rsum p (fun i => rsum p (fun j => rmul p R (rmul p G R) i j * rmul p R (rmul p G R) i j))).
  { intros R SR ER. set (W := rmul p R (rmul p G R)).
    assert (SW : sym p W). { apply (sym_ext p (rmul p (rT R) (rmul p G R))); [|now apply sym_congr]. apply rmul_ext; [now apply sym_T|apply meq_refl]. }
    transitivity (rtrace p (rmul p W W)).
    - (* G Sig G Sig = G R R G R R ~ R G R R G R *)
      assert (E1 : meq p p (rmul p (rmul p G Sig) (rmul p G Sig)) (rmul p (rmul p G R) (rmul p (rmul p R (rmul p G R)) R))).
      { assert (E0 : meq p p (rmul p G Sig) (rmul p (rmul p G R) R)) by (eapply meq_trans; [apply rmul_ext; [apply meq_refl|apply meq_sym, ER]|apply meq_sym, mul_assoc]).
        eapply meq_trans; [apply rmul_ext; exact E0|]. eapply meq_trans; [apply mul_assoc|]. apply rmul_ext; [apply meq_refl|]. apply meq_sym, mul_assoc. }
      rewrite (rtrace_ext p _ _ E1). rewrite rtrace_comm. apply rtrace_ext. unfold W. eapply meq_trans; [apply mul_assoc|]. apply meq_refl.
    - unfold rtrace, rmul at 1. apply rsum_ext. intros i Hi. apply rsum_ext. intros j Hj. now rewrite (SW j i Hj Hi). }
  split.
  - intros Hpos HP. rewrite linear_variance_trace by auto. destruct (PS HP) as (R & SR & ER). rewrite (TR R SR ER).
    apply Rmult_le_pos; [apply Rlt_le, Rdiv_lt_0_compat; lra|]. apply rsum_nonneg. intros. apply rsum_nonneg. intros. apply Rle_0_sqr.
  - intros Hpos HP. rewrite linear_variance_trace by auto. destruct (pd_sqrt p Sig HP) as (R & Ri & SR & _ & ER & IR). rewrite (TR R SR ER). split.
    + intros E. assert (Z : rsum p (fun i => rsum p (fun j => rmul p R (rmul p G R) i j * rmul p R (rmul p G R) i j)) = 0).
      { assert (0 < 2 / IZR n) by (apply Rdiv_lt_0_compat; lra). apply Rmult_integral in E as [E|E]; [lra|exact E]. }
      assert (WZ : meq p p (rmul p R (rmul p G R)) (fun _ _ => 0)).
      { intros i j Hi Hj. pose proof (rsum_pos_zero p _ ltac:(intros; apply rsum_nonneg; intros; apply Rle_0_sqr) Z i Hi) as Zi. cbn beta in Zi.
        pose proof (rsum_pos_zero p _ ltac:(intros; apply Rle_0_sqr) Zi j Hj) as Zj. cbn beta in Zj. now apply Rmult_integral in Zj as [Zj|Zj]. }
      assert (EG : meq p p G (rmul p (rmul p Ri (rmul p R (rmul p G R))) Ri)).
      { apply meq_sym. eapply meq_trans.
        - apply rmul_ext; [|apply meq_refl]. eapply meq_trans; [apply meq_sym, mul_assoc|]. eapply meq_trans; [apply rmul_ext; [apply IR|apply meq_refl]|apply mul_I_l].
        - eapply meq_trans; [apply mul_assoc|]. eapply meq_trans; [apply rmul_ext; [apply meq_refl|apply IR]|apply mul_I_r]. }
      eapply meq_trans; [exact EG|]. intros i j Hi Hj. unfold rmul at 1. apply rsum_zero. intros k Hk. unfold rmul at 1. rewrite rsum_zero; [ring|]. intros l Hl. rewrite (WZ l k Hl Hk). ring.
    + intros Z. rewrite (rsum_zero p); [ring|]. intros i Hi. apply rsum_zero. intros j Hj.
      assert (rmul p R (rmul p G R) i j = 0) as ->; [|ring]. unfold rmul at 1. apply rsum_zero. intros k Hk. unfold rmul. rewrite rsum_zero; [ring|]. intros l Hl. rewrite (Z k l Hk Hl). ring.
Qed.
Theorem C98_quadform_no_observations p G Sig : (1 <= p)%nat -> cov_quadform (N := NumX) (fm p p G) (fm p p Sig) 0 = Err ZeroDivisionError.
Proof. intros Hp. unfold cov_quadform. rewrite matmul_fin by auto. cbn [bind]. rewrite !nofZ_fin. now rewrite py_div_zero. Qed.

(** ** The numerical gradient *)
Definition pair_dir (i j : nat) : rmat := fun a b => if ((a =? i) && (b =? j)) || ((a =? j) && (b =? i)) then 1 else 0.
Lemma unit_pair_fin p i j : unit_pair (N := NumX) p i j = fm p p (pair_dir i j).
Proof. unfold unit_pair, fm. apply tab2_ext. intros a b _ _. unfold pair_dir. destruct (_ || _); reflexivity. Qed.
Definition cell (gap : mat NumX -> res NumX) (p : nat) (S : mat NumX) (h : NumX) (i j : nat) : res NumX :=
  Sp <- madd S (mscale h (unit_pair p i j)) ;; dp <- gap Sp ;; Sm <- msub S (mscale h (unit_pair p i j)) ;; dm <- gap Sm ;; Ok (ndiv (nsub dp dm) (nmul (nofZ 2) h)).
(** the central difference along E_ij (+ E_ji) *)
Lemma gradient_fin (gap : mat NumX -> res NumX) p (S : rmat) h (f : rmat -> R) : (1 <= p)%nat -> h <> 0 ->
  (forall i j s, (i < p)%nat -> (j < p)%nat -> (s = h \/ s = - h) -> gap (fm p p (fun a b => S a b + s * pair_dir i j a b)) = Ok (Fin (f (fun a b => S a b + s * pair_dir i j a b)))) ->
  gradient gap (fm p p S) (Fin h) = Ok (fm p p (fun i j =>
    (f (fun a b => S a b + h * pair_dir (Nat.min i j) (Nat.max i j) a b) - f (fun a b => S a b + - h * pair_dir (Nat.min i j) (Nat.max i j) a b)) / (2 * h))).
Proof.
  intros Hp Hh Hf. unfold gradient. rewrite fm_nrows.
  set (v := fun i j => Fin ((f (fun a b => S a b + h * pair_dir i j a b) - f (fun a b => S a b + - h * pair_dir i j a b)) / (2 * h)) : NumX).
  assert (G0 : forall i j, (i < p)%nat -> (j < p)%nat -> cell gap p (fm p p S) (Fin h) i j = Ok (v i j)).
  { intros i j Hi Hj. unfold cell. rewrite unit_pair_fin, mscale_fin, madd_fin. cbn [bind]. rewrite Hf by auto. cbn [bind].
    rewrite msub_fin. cbn [bind]. assert (EM : fm p p (fun a b => S a b - h * pair_dir i j a b) = fm p p (fun a b => S a b + - h * pair_dir i j a b)) by (apply fm_ext; intros a b _ _; ring).
    rewrite EM, Hf by auto. cbn [bind]. f_equal. unfold v.
    match goal with |- @ndiv NumX ?x ?y = _ => change (@ndiv NumX x y) with (@ndiv NumX (Fin (f (fun a b => S a b + h * pair_dir i j a b) - f (fun a b => S a b + - h * pair_dir i j a b))) (Fin (2 * h))) end.
    rewrite div_fin by lra. reflexivity. }
  assert (E : mapM (fun i => mapM (cell gap p (fm p p S) (Fin h) i) (seq i (p - i))) (seq 0 p) = Ok (map (fun i => map (v i) (seq i (p - i))) (seq 0 p))).
  { assert (G : forall i l, (i < p)%nat -> (forall j, In j l -> (j < p)%nat) -> mapM (cell gap p (fm p p S) (Fin h) i) l = Ok (map (v i) l)).
    { intros i l Hi. induction l as [|j l IH]; intros Hl; [reflexivity|]. cbn [mapM map]. rewrite G0 by (auto; apply Hl; now left). cbn [bind]. rewrite IH by (intros; apply Hl; now right). reflexivity. }
    assert (G2 : forall l, (forall i, In i l -> (i < p)%nat) -> mapM (fun i => mapM (cell gap p (fm p p S) (Fin h) i) (seq i (p - i))) l = Ok (map (fun i => map (v i) (seq i (p - i))) l)).
    { induction l as [|i l IH]; intros Hl; [reflexivity|]. cbn [mapM map]. rewrite G; [|apply Hl; now left|intros j Hj; apply in_seq in Hj; lia]. cbn [bind]. rewrite IH by (intros; apply Hl; now right). reflexivity. }
    apply G2. intros i Hi. apply in_seq in Hi. lia. }
  match goal with |- bind ?m _ = _ => change m with (mapM (fun i => mapM (cell gap p (fm p p S) (Fin h) i) (seq i (p - i))) (seq 0 p)) end.
  rewrite E. cbn [bind]. f_equal. unfold fm. apply tab2_ext. intros i j Hi Hj.
  rewrite (nth_indep _ [] (map (v 0%nat) (seq 0 (p - 0)))) by (rewrite map_length, seq_length; lia).
  rewrite (map_nth (fun i => map (v i) (seq i (p - i)))), seq_nth by lia. cbn [Nat.add].
  unfold vget. rewrite (nth_indep _ _ (v (Nat.min i j) 0%nat)) by (rewrite map_length, seq_length; lia).
  rewrite (map_nth (v (Nat.min i j))), seq_nth by lia. replace (Nat.min i j + (Nat.max i j - Nat.min i j))%nat with (Nat.max i j) by lia. reflexivity.
Qed.
(** the sum of the products of the entries *)
Definition inner (p : nat) (M E : rmat) : R := rsum p (fun i => rsum p (fun j => M i j * E i j)).
Lemma inner_pair p M i j : (i < p)%nat -> (j < p)%nat -> inner p M (pair_dir i j) = if Nat.eqb i j then M i i else M i j + M j i.
Proof.
  intros Hi Hj. unfold inner, pair_dir. destruct (Nat.eqb_spec i j) as [->|Hn].
  - rewrite (rsum_ext p _ (fun a => if Nat.eqb a j then M j j else 0)).
    + apply (rsum_delta p j (fun _ => M j j)); auto.
    + intros a Ha. destruct (Nat.eqb_spec a j) as [->|Hne].
      * cbn [andb orb]. rewrite (rsum_ext p _ (fun b => if Nat.eqb b j then M j j else 0)); [apply (rsum_delta p j (fun _ => M j j)); auto|].
        intros b Hb. destruct (Nat.eqb_spec b j) as [->|]; cbn [orb]; ring.
      * cbn [andb orb]. apply rsum_zero. intros; ring.
  - rewrite (rsum_ext p _ (fun a => (if Nat.eqb a i then M i j else 0) + (if Nat.eqb a j then M j i else 0))).
    + rewrite rsum_plus, (rsum_delta p i (fun _ => M i j)), (rsum_delta p j (fun _ => M j i)) by auto. reflexivity.
    + intros a Ha. destruct (Nat.eqb_spec a i) as [->|H1]; [|destruct (Nat.eqb_spec a j) as [->|H2]].
      * destruct (Nat.eqb_spec i j); [contradiction|]. cbn [andb]. rewrite (rsum_ext p _ (fun b => if Nat.eqb b j then M i j else 0)); [rewrite (rsum_delta p j (fun _ => M i j)) by auto; ring|].
        intros b Hb. destruct (Nat.eqb_spec b j) as [->|]; cbn [orb]; ring.
      * cbn [andb orb]. rewrite (rsum_ext p _ (fun b => if Nat.eqb b i then M j i else 0)); [rewrite (rsum_delta p i (fun _ => M j i)) by auto; ring|].
        intros b Hb. destruct (Nat.eqb_spec b i) as [->|]; ring.
      * cbn [andb orb]. rewrite rsum_zero; [ring|]. intros; ring.
Qed.
Lemma pair_dir_sym i j a b : pair_dir i j a b = pair_dir i j b a.
Proof. unfold pair_dir. destruct (Nat.eqb_spec a i), (Nat.eqb_spec b j), (Nat.eqb_spec a j), (Nat.eqb_spec b i); reflexivity. Qed.
Lemma uniform_delta (P : nat -> R -> Prop) n : (forall i d d', P i d -> 0 < d' <= d -> P i d') -> (forall i, (i < n)%nat -> exists d, 0 < d /\ P i d) -> exists d, 0 < d /\ forall i, (i < n)%nat -> P i d.
Proof.
  intros HM. induction n as [|n IH]; intros H; [exists 1; split; [lra|intros; lia]|]. destruct IH as (d & Hd & HP); [intros; apply H; lia|]. destruct (H n ltac:(lia)) as (d' & Hd' & HP').
  exists (Rmin d d'). split; [now apply Rmin_glb_lt|]. intros i Hi. destruct (Nat.eq_dec i n) as [->|].
  - apply (HM n d'); auto. split; [now apply Rmin_glb_lt|apply Rmin_r].
  - apply (HM i d); [apply HP; lia|]. split; [now apply Rmin_glb_lt|apply Rmin_l].
Qed.
(** "Gradient with respect to the symmetric S": for a gap differentiable at S, with derivative E |-> sum_ij M_ij E_ij on symmetric directions E and M
    symmetric, the numerical gradient converges to M on the diagonal but to TWICE M off the diagonal, since each step moves two entries. *)
Theorem C98_gradient_counts_pairs_twice (gap : mat NumX -> res NumX) p (S M : rmat) (f : rmat -> R) : (1 <= p)%nat -> sym p M ->
  (forall E, (forall a b, E a b = E b a) -> forall eps, 0 < eps -> exists d, 0 < d /\ forall t, t <> 0 -> Rabs t < d ->
     gap (fm p p (fun a b => S a b + t * E a b)) = Ok (Fin (f (fun a b => S a b + t * E a b))) /\ Rabs ((f (fun a b => S a b + t * E a b) - f S) / t - inner p M E) < eps) ->
  forall eps, 0 < eps -> exists d, 0 < d /\ forall h, 0 < h < d -> exists G, gradient gap (fm p p S) (Fin h) = Ok (fm p p G) /\
    forall i j, (i < p)%nat -> (j < p)%nat -> Rabs (G i j - (if Nat.eqb i j then 1 else 2) * M i j) < eps.
Proof.
  intros Hp HM HD eps Heps.
  set (P := fun i j d => forall t, t <> 0 -> Rabs t < d -> gap (fm p p (fun a b => S a b + t * pair_dir i j a b)) = Ok (Fin (f (fun a b => S a b + t * pair_dir i j a b))) /\
     Rabs ((f (fun a b => S a b + t * pair_dir i j a b) - f S) / t - inner p M (pair_dir i j)) < eps).
  assert (HP : exists d, 0 < d /\ forall i, (i < p)%nat -> forall j, (j < p)%nat -> P i j d).
  { apply (uniform_delta (fun i d => forall j, (j < p)%nat -> P i j d)).
    - intros i d d' H Hd j Hj t Ht Hlt. apply H; auto. lra.
    - intros i Hi. apply (uniform_delta (fun j d => P i j d)).
      + intros j d d' H Hd t Ht Hlt. apply H; auto. lra.
      + intros j Hj. apply HD; auto. apply pair_dir_sym. }
  destruct HP as (d & Hd & HP). exists d. split; [exact Hd|]. intros h Hh.
  rewrite (gradient_fin gap p S h f Hp ltac:(lra)).
  2:{ intros i j s Hi Hj Hs. apply (HP i Hi j Hj); [destruct Hs as [->| ->]; lra|]. destruct Hs as [->| ->]; rewrite ?Rabs_Ropp, Rabs_right; lra. }
  eexists. split; [reflexivity|]. intros i j Hi Hj.
  assert (Hm : (Nat.min i j < p)%nat) by lia. assert (Hx : (Nat.max i j < p)%nat) by lia.
  destruct (HP _ Hm _ Hx h ltac:(lra) ltac:(rewrite Rabs_right; lra)) as [_ H1].
  destruct (HP _ Hm _ Hx (- h) ltac:(lra) ltac:(rewrite Rabs_Ropp, Rabs_right; lra)) as [_ H2].
  assert (EI : inner p M (pair_dir (Nat.min i j) (Nat.max i j)) = (if Nat.eqb i j then 1 else 2) * M i j).
  { rewrite inner_pair by auto. destruct (Nat.eqb_spec i j) as [->|Hn].
    - rewrite Nat.min_id, Nat.max_id, Nat.eqb_refl. ring.
    - destruct (Nat.eqb_spec (Nat.min i j) (Nat.max i j)); [lia|]. destruct (Nat.le_ge_cases i j) as [H|H].
      + rewrite Nat.min_l, Nat.max_r by lia. rewrite (HM j i Hj Hi). ring.
      + rewrite Nat.min_r, Nat.max_l by lia. rewrite (HM j i Hj Hi). ring. }
  rewrite EI in H1, H2. set (m := (if Nat.eqb i j then 1 else 2) * M i j) in *.
  set (fp := f (fun a b => S a b + h * pair_dir (Nat.min i j) (Nat.max i j) a b)) in *. set (fn := f (fun a b => S a b + - h * pair_dir (Nat.min i j) (Nat.max i j) a b)) in *.
  replace ((fp - fn) / (2 * h) - m) with (/ 2 * (((fp - f S) / h - m) + ((fn - f S) / - h - m))) by (field; lra).
  rewrite Rabs_mult, (Rabs_right (/ 2)) by lra. pose proof (Rabs_triang ((fp - f S) / h - m) ((fn - f S) / - h - m)). lra.
Qed.

(** ** What that does to the variance *)
Definition diag_of (d : nat -> R) : rmat := fun i j => if Nat.eqb i j then d i else 0.
Lemma variance_diag p M d n : n <> 0 -> sym p M -> linear_variance p M (diag_of d) n = 2 / n * rsum p (fun i => rsum p (fun j => M i j * M i j * (d i * d j))).
Proof.
  intros Hn HM. assert (SD : sym p (diag_of d)). { intros i j _ _. unfold diag_of. rewrite (Nat.eqb_sym j i). destruct (Nat.eqb_spec i j) as [->|]; reflexivity. }
  rewrite linear_variance_trace by auto. f_equal. unfold rtrace. apply rsum_ext. intros i Hi. unfold rmul at 1.
  assert (E : forall i j, (j < p)%nat -> rmul p M (diag_of d) i j = M i j * d j).
  { intros a b Hb. unfold rmul, diag_of. rewrite (rsum_ext p _ (fun k => if Nat.eqb k b then M a k * d k else 0)) by (intros; destruct Nat.eqb; ring). now rewrite rsum_delta by auto. }
  apply rsum_ext. intros j Hj. rewrite !E, (HM j i Hj Hi) by auto. ring.
Qed.
(** For a gap that is linear in S (so that [sum_ij M_ij S_ij] is the gap itself and its variance under the sampling covariance is known
    exactly) and a diagonal truth: the variance [snr_delta] uses is between one and four times the true one, equal to it only when no
    off-diagonal entry matters, and four times it when only off-diagonal entries do. *)
Theorem C98_variance_overstated (gap : mat NumX -> res NumX) p (S M : rmat) (d : nat -> R) c h n : (1 <= p)%nat -> sym p M -> h <> 0 -> (0 < n)%Z -> (forall i, (i < p)%nat -> 0 < d i) ->
  (forall X, gap (fm p p X) = Ok (Fin (c + inner p M X))) ->
  exists G v, gradient gap (fm p p S) (Fin h) = Ok (fm p p G) /\ cov_quadform (N := NumX) (fm p p G) (fm p p (diag_of d)) n = Ok (Fin v) /\
    let truth := linear_variance p M (diag_of d) (IZR n) in
    truth <= v <= 4 * truth /\ (v = truth <-> forall i j, (i < p)%nat -> (j < p)%nat -> i <> j -> M i j = 0) /\ (v = 4 * truth <-> forall i, (i < p)%nat -> M i i = 0).
Proof.
  intros Hp HM Hh Hn Hd Hg. set (G := fun i j => (if Nat.eqb i j then 1 else 2) * M i j).
  assert (SD : sym p (diag_of d)). { intros i j _ _. unfold diag_of. rewrite (Nat.eqb_sym j i). destruct (Nat.eqb_spec i j) as [->|]; reflexivity. }
  assert (SG : sym p G) by (intros i j Hi Hj; unfold G; now rewrite (Nat.eqb_sym j i), (HM i j Hi Hj)).
  assert (Hn0 : 0 < IZR n) by (apply IZR_lt; lia).
  assert (EG : gradient gap (fm p p S) (Fin h) = Ok (fm p p G)).
  { rewrite (gradient_fin gap p S h (fun X => c + inner p M X) Hp Hh) by (intros; apply Hg). f_equal. apply fm_ext. intros i j Hi Hj.
    assert (LI : forall s E, inner p M (fun a b => S a b + s * E a b) = inner p M S + s * inner p M E).
    { intros s E. unfold inner. rewrite <- rsum_scal, <- rsum_plus. apply rsum_ext. intros a _. rewrite <- rsum_scal, <- rsum_plus. apply rsum_ext. intros b _. ring. }
    rewrite !LI, inner_pair by lia. unfold G. destruct (Nat.eqb_spec i j) as [->|Hne].
    - rewrite Nat.min_id, Nat.max_id, Nat.eqb_refl. field. exact Hh.
    - destruct (Nat.eqb_spec (Nat.min i j) (Nat.max i j)); [lia|]. destruct (Nat.le_ge_cases i j) as [H|H].
      + rewrite Nat.min_l, Nat.max_r by lia. rewrite (HM j i Hj Hi). field. exact Hh.
      + rewrite Nat.min_r, Nat.max_l by lia. rewrite (HM j i Hj Hi). field. exact Hh. }
  destruct (C98_quadform p G (diag_of d) n Hp ltac:(lia) SG SD) as [EV _].
  exists G, (linear_variance p G (diag_of d) (IZR n)). split; [exact EG|]. split; [exact EV|]. cbv zeta. rewrite !variance_diag by (auto; lra).
  set (w := fun i j => M i j * M i j * (d i * d j)).
  assert (W0 : forall i j, (i < p)%nat -> (j < p)%nat -> 0 <= w i j). { intros i j Hi Hj. unfold w. apply Rmult_le_pos; [apply Rle_0_sqr|]. apply Rlt_le, Rmult_lt_0_compat; auto. }
  assert (WZ : forall i j, (i < p)%nat -> (j < p)%nat -> (w i j = 0 <-> M i j = 0)).
  { intros i j Hi Hj. unfold w. split; [|intros ->; ring]. intros E. assert (0 < d i * d j) by (apply Rmult_lt_0_compat; auto). apply Rmult_integral in E as [E|E]; [|lra]. now apply Rmult_integral in E as [E|E]. }
  set (dg := rsum p (fun i => w i i)). set (od := rsum p (fun i => rsum p (fun j => if Nat.eqb i j then 0 else w i j))).
  assert (ET : rsum p (fun i => rsum p (fun j => M i j * M i j * (d i * d j))) = dg + od).
  { unfold dg, od. rewrite <- rsum_plus. apply rsum_ext. intros i Hi. rewrite <- (rsum_delta' p i (fun j => w i j) Hi), <- rsum_plus. apply rsum_ext. intros j Hj. fold (w i j). destruct (Nat.eqb i j); ring. }
  assert (EV' : rsum p (fun i => rsum p (fun j => G i j * G i j * (d i * d j))) = dg + 4 * od).
  { unfold dg, od. rewrite <- rsum_scal, <- rsum_plus. apply rsum_ext. intros i Hi. rewrite <- (rsum_delta' p i (fun j => w i j) Hi), <- rsum_scal, <- rsum_plus. apply rsum_ext. intros j Hj. unfold G, w. destruct (Nat.eqb i j); ring. }
  rewrite ET, EV'.
  assert (D0 : 0 <= dg) by (apply rsum_nonneg; auto).
  assert (O0' : forall i, (i < p)%nat -> 0 <= rsum p (fun j => if Nat.eqb i j then 0 else w i j)) by (intros i Hi; apply rsum_nonneg; intros j Hj; destruct (Nat.eqb i j); [lra|auto]).
  assert (O0 : 0 <= od) by (apply rsum_nonneg; auto). assert (K : 0 < 2 / IZR n) by (apply Rdiv_lt_0_compat; lra).
  assert (DZ : dg = 0 <-> forall i, (i < p)%nat -> M i i = 0).
  { split; [|intros H; apply rsum_zero; intros i Hi; apply WZ; auto]. intros E i Hi. apply WZ; auto. apply (rsum_pos_zero p (fun i => w i i)); auto. }
  assert (OZ : od = 0 <-> forall i j, (i < p)%nat -> (j < p)%nat -> i <> j -> M i j = 0).
  { split.
    - intros E i j Hi Hj Hne. apply WZ; auto. pose proof (rsum_pos_zero p _ O0' E i Hi) as Ei. cbn beta in Ei.
      pose proof (rsum_pos_zero p (fun j => if Nat.eqb i j then 0 else w i j) ltac:(intros k Hk; cbn beta; destruct (Nat.eqb i k); [apply Rle_refl|apply W0; assumption]) Ei j Hj) as Ej. cbn beta in Ej. destruct (Nat.eqb_spec i j); [contradiction|exact Ej].
    - intros H. apply rsum_zero. intros i Hi. apply rsum_zero. intros j Hj. destruct (Nat.eqb_spec i j); [reflexivity|]. apply WZ; auto. }
  set (k := 2 / IZR n) in *.
  assert (KO : 0 <= k * od) by (apply Rmult_le_pos; lra). assert (KD : 0 <= k * dg) by (apply Rmult_le_pos; lra).
  assert (KZ : forall x, k * x = 0 -> x = 0) by (intros x E; apply Rmult_integral in E as [E|E]; [exfalso; lra|exact E]).
  rewrite !Rmult_plus_distr_l. replace (k * (4 * od)) with (4 * (k * od)) by ring.
  split; [split; lra|]. split.
  - rewrite <- OZ. split; [intros E; apply KZ; lra|intros ->; rewrite Rmult_0_r; lra].
  - rewrite <- DZ. split; [intros E; apply KZ; lra|intros ->; rewrite Rmult_0_r; lra].
Qed.
Example C98_gradient_witness : exists (gap : mat NumX -> res NumX) G v, gradient gap (fm 2 2 rI) (Fin 1) = Ok (fm 2 2 G) /\
  cov_quadform (N := NumX) (fm 2 2 G) (fm 2 2 (diag_of (fun _ => 1))) 10 = Ok (Fin v) /\ v = 4 * linear_variance 2 (fun i j => if Nat.eqb i j then 0 else 1) (diag_of (fun _ => 1)) 10 /\ 0 < v.
Proof.
  set (M := fun i j => if Nat.eqb i j then 0 else 1 : R).
  assert (SM : sym 2 M) by (intros i j _ _; unfold M; now rewrite Nat.eqb_sym).
  set (gap := fun X : mat NumX => Ok (Fin (0 + rsum 2 (fun i => rsum 2 (fun j => M i j * match mget X i j with Fin x => x | _ => 0 end)))) : res NumX).
  assert (HG : forall X, gap (fm 2 2 X) = Ok (Fin (0 + inner 2 M X))) by (intros X; unfold gap, inner; do 3 f_equal; apply rsum_ext; intros i Hi; apply rsum_ext; intros j Hj; now rewrite fm_get by auto).
  destruct (C98_variance_overstated gap 2 rI M (fun _ => 1) 0 1 10 ltac:(lia) SM ltac:(lra) ltac:(lia) ltac:(intros; lra) HG) as (G & v & E1 & E2 & _ & _ & E3).
  exists gap, G, v. split; [exact E1|]. split; [exact E2|]. assert (E : v = 4 * linear_variance 2 M (diag_of (fun _ => 1)) 10) by (apply E3; intros i Hi; unfold M; now rewrite Nat.eqb_refl).
  split; [exact E|]. rewrite E, variance_diag by (auto; lra). unfold M. cbn [rsum Nat.eqb]. lra.
Qed.

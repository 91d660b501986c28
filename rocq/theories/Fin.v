(** * The numpy model on finite reals

    [fv p f] is the numpy vector (f 0, ..., f (p-1)) and [fm p q F] the numpy matrix with entries
    [F i j], with all entries finite.  Each lemma says what an operation of Numpy.v computes on them. *)
From Coq Require Import Reals ZArith List Lia Lra Arith Bool.
From Verif Require Import Num Numpy LinalgModel ListLemmas RMat.
Import ListNotations.
Local Open Scope R_scope.

Definition fv (p : nat) (f : nat -> R) : vec NumX := tab p (fun i => Fin (f i) : NumX).
Definition fm (p q : nat) (F : nat -> nat -> R) : mat NumX := tab2 p q (fun i j => Fin (F i j) : NumX).

Lemma fv_ext p f g : (forall i, (i < p)%nat -> f i = g i) -> fv p f = fv p g.
Proof. intros H. apply tab_ext. intros. now rewrite H. Qed.
Lemma fm_ext p q F G : (forall i j, (i < p)%nat -> (j < q)%nat -> F i j = G i j) -> fm p q F = fm p q G.
Proof. intros H. apply tab2_ext. intros. now rewrite H. Qed.
Lemma fv_inj p f g i : fv p f = fv p g -> (i < p)%nat -> f i = g i.
Proof. intros H Hi. pose proof (tab_inj _ _ _ i H Hi) as K. now injection K. Qed.
Lemma fm_inj p q F G i j : fm p q F = fm p q G -> (i < p)%nat -> (j < q)%nat -> F i j = G i j.
Proof. intros H Hi Hj. pose proof (tab2_inj _ _ _ _ i j H Hi Hj) as K. now injection K. Qed.
Lemma fv_length p f : length (fv p f) = p.
Proof. apply tab_length. Qed.
Lemma fm_mat p q F : is_mat p q (fm p q F).
Proof. apply is_mat_tab2. Qed.
Lemma fm_nrows p q F : nrows (fm p q F) = p.
Proof. apply tab2_length. Qed.
Lemma fm_ncols p q F : (1 <= p)%nat -> ncols (fm p q F) = q.
Proof. intros H. unfold ncols, fm, tab2. destruct p; [lia|]. rewrite tab_S. simpl. apply tab_length. Qed.
Lemma fv_get p f i : (i < p)%nat -> vget (fv p f) i = Fin (f i).
Proof. intros. unfold vget, fv. now rewrite nth_tab. Qed.
Lemma fm_get p q F i j : (i < p)%nat -> (j < q)%nat -> mget (fm p q F) i j = Fin (F i j).
Proof. intros. unfold mget, fm, tab2. rewrite nth_tab by auto. now rewrite nth_tab. Qed.

(** ** Scalars *)
Lemma nofn_fin n : @nofn NumX n = Fin (INR n).
Proof. unfold nofn. cbn. now rewrite INR_IZR_INZ. Qed.
Lemma nofZ_fin z : @nofZ NumX z = Fin (IZR z). Proof. reflexivity. Qed.
Lemma n0_fin : @n0 NumX = Fin 0. Proof. reflexivity. Qed.
Lemma n1_fin : @n1 NumX = Fin 1. Proof. reflexivity. Qed.
Lemma add_fin a b : @nadd NumX (Fin a) (Fin b) = Fin (a + b). Proof. reflexivity. Qed.
Lemma sub_fin a b : @nsub NumX (Fin a) (Fin b) = Fin (a - b). Proof. reflexivity. Qed.
Lemma mul_fin a b : @nmul NumX (Fin a) (Fin b) = Fin (a * b). Proof. reflexivity. Qed.
Lemma opp_fin a : @nopp NumX (Fin a) = Fin (- a). Proof. reflexivity. Qed.
Lemma nsq_fin a : @nsq NumX (Fin a) = Fin (a * a). Proof. reflexivity. Qed.
Lemma div_fin a b : b <> 0 -> @ndiv NumX (Fin a) (Fin b) = Fin (a / b).
Proof. intros H. cbn. unfold Reqb. destruct (Req_EM_T b 0); [contradiction|reflexivity]. Qed.
Lemma sqrt_fin a : 0 <= a -> @nsqrt NumX (Fin a) = Fin (sqrt a).
Proof. intros H. cbn. unfold Rltb. destruct (Rlt_dec a 0); [lra|reflexivity]. Qed.
Lemma ltb_fin a b : @nltb NumX (Fin a) (Fin b) = Rltb a b. Proof. reflexivity. Qed.
Lemma leb_fin a b : @nleb NumX (Fin a) (Fin b) = Rleb a b. Proof. reflexivity. Qed.
Lemma Rltb_true a b : a < b -> Rltb a b = true.
Proof. intros. unfold Rltb. destruct (Rlt_dec a b); [reflexivity|contradiction]. Qed.
Lemma Rltb_false a b : ~ a < b -> Rltb a b = false.
Proof. intros. unfold Rltb. destruct (Rlt_dec a b); [contradiction|reflexivity]. Qed.
Lemma Rleb_true a b : a <= b -> Rleb a b = true.
Proof. intros. unfold Rleb. destruct (Rle_dec a b); [reflexivity|contradiction]. Qed.
Lemma Rleb_false a b : ~ a <= b -> Rleb a b = false.
Proof. intros. unfold Rleb. destruct (Rle_dec a b); [contradiction|reflexivity]. Qed.
Lemma Rltb_spec a b : reflect (a < b) (Rltb a b).
Proof. unfold Rltb. destruct (Rlt_dec a b); constructor; auto. Qed.
Lemma Rleb_spec a b : reflect (a <= b) (Rleb a b).
Proof. unfold Rleb. destruct (Rle_dec a b); constructor; auto. Qed.
Lemma np_max_fin a b : @np_max NumX (Fin a) (Fin b) = Fin (Rmax a b).
Proof.
  unfold np_max. cbn. destruct (Rltb_spec a b); f_equal.
  - now rewrite Rmax_right by lra.
  - now rewrite Rmax_left by lra.
Qed.
Lemma np_min_fin a b : @np_min NumX (Fin a) (Fin b) = Fin (Rmin a b).
Proof.
  unfold np_min. cbn. destruct (Rltb_spec b a); f_equal.
  - now rewrite Rmin_right by lra.
  - now rewrite Rmin_left by lra.
Qed.
Lemma py_max_fin a b : @py_max NumX (Fin a) (Fin b) = Fin (Rmax a b).
Proof.
  unfold py_max. cbn. destruct (Rltb_spec a b); f_equal.
  - now rewrite Rmax_right by lra.
  - now rewrite Rmax_left by lra.
Qed.
Lemma py_min_fin a b : @py_min NumX (Fin a) (Fin b) = Fin (Rmin a b).
Proof.
  unfold py_min. cbn. destruct (Rltb_spec b a); f_equal.
  - now rewrite Rmin_right by lra.
  - now rewrite Rmin_left by lra.
Qed.
Definition rclip (x lo hi : R) : R := Rmin (Rmax x lo) hi.
Lemma np_clip_fin x lo hi : @np_clip NumX (Fin x) (Fin lo) (Fin hi) = Fin (rclip x lo hi).
Proof. unfold np_clip. now rewrite np_max_fin, np_min_fin. Qed.
Lemma np_clip_lo_fin x lo : @np_clip_lo NumX (Fin x) (Fin lo) = Fin (Rmax x lo).
Proof. apply np_max_fin. Qed.
Lemma rclip_bounds x lo hi : lo <= hi -> lo <= rclip x lo hi <= hi.
Proof.
  intros H. unfold rclip. split; [|apply Rmin_r]. apply Rmin_glb; auto. apply Rmax_r.
Qed.
Lemma pow10_nz k : IZR (10 ^ Z.of_nat k) <> 0.
Proof. apply not_0_IZR. apply Z.pow_nonzero; lia. Qed.
Lemma nlit_fin m k : @nlit NumX m k = Fin (IZR m / IZR (10 ^ Z.of_nat k)).
Proof. unfold nlit. rewrite !nofZ_fin. apply div_fin. apply pow10_nz. Qed.
Definition e12 : R := 1 / 10 ^ 12.
Definition e8 : R := 1 / 10 ^ 8.
Lemma e12_pos : 0 < e12. Proof. unfold e12. lra. Qed.
Lemma e8_pos : 0 < e8. Proof. unfold e8. lra. Qed.
Lemma lit12 : @nlit NumX 1 12 = Fin e12.
Proof. rewrite nlit_fin. f_equal. unfold e12. f_equal. cbn. lra. Qed.
Lemma lit8 : @nlit NumX 1 8 = Fin e8.
Proof. rewrite nlit_fin. f_equal. unfold e8. f_equal. cbn. lra. Qed.
Lemma EPS_fin : @EPS NumX = Fin e12. Proof. apply lit12. Qed.
Lemma py_div_fin a b : b <> 0 -> @py_div NumX (Fin a) (Fin b) = Ok (Fin (a / b)).
Proof.
  intros H. unfold py_div. rewrite n0_fin, !leb_fin.
  destruct (Rleb_spec b 0), (Rleb_spec 0 b); cbn [andb]; try (now rewrite div_fin by auto). lra.
Qed.
Lemma py_div_zero a : @py_div NumX a (Fin 0) = Err ZeroDivisionError.
Proof. unfold py_div. rewrite n0_fin, !leb_fin, !Rleb_true by lra. reflexivity. Qed.

(** ** Vectors *)
Lemma vzeros_fin p : @vzeros NumX p = fv p (fun _ => 0). Proof. reflexivity. Qed.
Lemma vones_fin p : @vones NumX p = fv p (fun _ => 1). Proof. reflexivity. Qed.
Lemma vadd_fin p f g : @vadd NumX (fv p f) (fv p g) = Ok (fv p (fun i => f i + g i)).
Proof. unfold vadd, fv. rewrite bc_tab. reflexivity. Qed.
Lemma vsub_fin p f g : @vsub NumX (fv p f) (fv p g) = Ok (fv p (fun i => f i - g i)).
Proof. unfold vsub, fv. rewrite bc_tab. reflexivity. Qed.
Lemma vmul_fin p f g : @vmul NumX (fv p f) (fv p g) = Ok (fv p (fun i => f i * g i)).
Proof. unfold vmul, fv. rewrite bc_tab. reflexivity. Qed.
Lemma vdiv_fin p f g : (forall i, (i < p)%nat -> g i <> 0) -> @vdiv NumX (fv p f) (fv p g) = Ok (fv p (fun i => f i / g i)).
Proof.
  intros H. unfold vdiv, fv. rewrite bc_tab. f_equal. apply tab_ext. intros i Hi. apply div_fin; auto.
Qed.
Lemma vscale_fin p c f : @vscale NumX (Fin c) (fv p f) = fv p (fun i => c * f i).
Proof. unfold vscale, fv. now rewrite map_tab. Qed.
Lemma vdivs_fin p c f : c <> 0 -> @vdivs NumX (fv p f) (Fin c) = fv p (fun i => f i / c).
Proof. intros H. unfold vdivs, fv. rewrite map_tab. apply tab_ext. intros. now apply div_fin. Qed.
Lemma map_fin p (h : NumX -> NumX) (g f : nat -> R) :
  (forall i, (i < p)%nat -> h (Fin (f i)) = Fin (g i)) -> map h (fv p f) = fv p g.
Proof. intros H. unfold fv. rewrite map_tab. apply tab_ext. intros. now rewrite H. Qed.
Lemma vsum_fin p f : @vsum NumX (fv p f) = Fin (rsum p f).
Proof.
  unfold vsum, fv. induction p; [reflexivity|].
  rewrite tab_snoc, fold_left_app, IHp. reflexivity.
Qed.
Lemma vmean_fin p f : (1 <= p)%nat -> @vmean NumX (fv p f) = Fin (rsum p f / INR p).
Proof.
  intros H. unfold vmean. rewrite vsum_fin, fv_length, nofn_fin. apply div_fin. apply not_0_INR. lia.
Qed.
Lemma zipw_mul_fin p f g : zipw (@nmul NumX) (fv p f) (fv p g) = fv p (fun i => f i * g i).
Proof. unfold fv. now rewrite zipw_tab. Qed.
Lemma vdot_fin p f g : @vdot NumX (fv p f) (fv p g) = Ok (Fin (rdot p f g)).
Proof. unfold vdot. rewrite !fv_length, Nat.eqb_refl. now rewrite zipw_mul_fin, vsum_fin. Qed.
Lemma vnorm_fin p f : @vnorm NumX (fv p f) = Fin (sqrt (rdot p f f)).
Proof.
  unfold vnorm. rewrite (map_fin p _ (fun i => f i * f i)) by reflexivity.
  rewrite vsum_fin, sqrt_fin; [reflexivity|]. apply rsum_nonneg. intros. apply Rle_0_sqr.
Qed.

(** ** Matrices *)
Lemma mzeros_fin p q : @mzeros NumX p q = fm p q (fun _ _ => 0). Proof. reflexivity. Qed.
Lemma meye_fin p : @meye NumX p = fm p p rI.
Proof. unfold meye, fm. apply tab2_ext. intros. unfold rI. destruct (Nat.eqb i j); reflexivity. Qed.
Lemma madd_fin p q F G : @madd NumX (fm p q F) (fm p q G) = Ok (fm p q (fun i j => F i j + G i j)).
Proof. unfold madd, fm. now rewrite bc2_tab. Qed.
Lemma msub_fin p q F G : @msub NumX (fm p q F) (fm p q G) = Ok (fm p q (fun i j => F i j - G i j)).
Proof. unfold msub, fm. now rewrite bc2_tab. Qed.
Lemma mmul_fin p q F G : @mmul NumX (fm p q F) (fm p q G) = Ok (fm p q (fun i j => F i j * G i j)).
Proof. unfold mmul, fm. now rewrite bc2_tab. Qed.
Lemma mdiv_fin p q F G : (forall i j, (i < p)%nat -> (j < q)%nat -> G i j <> 0) ->
  @mdiv NumX (fm p q F) (fm p q G) = Ok (fm p q (fun i j => F i j / G i j)).
Proof.
  intros H. unfold mdiv, fm. rewrite bc2_tab. f_equal. apply tab2_ext. intros. now apply div_fin; auto.
Qed.
Lemma mmap_fin p q (h : NumX -> NumX) (F G : rmat) :
  (forall i j, (i < p)%nat -> (j < q)%nat -> h (Fin (F i j)) = Fin (G i j)) -> mmap h (fm p q F) = fm p q G.
Proof. intros H. unfold mmap, fm. rewrite map_tab2. apply tab2_ext. intros. now rewrite H. Qed.
Lemma mscale_fin p q c F : @mscale NumX (Fin c) (fm p q F) = fm p q (fun i j => c * F i j).
Proof. unfold mscale. now apply mmap_fin. Qed.
Lemma mdivs_fin p q c F : c <> 0 -> @mdivs NumX (fm p q F) (Fin c) = fm p q (fun i j => F i j / c).
Proof. intros H. unfold mdivs. apply mmap_fin. intros. now apply div_fin. Qed.
Lemma outer_fin p q f g : @outer NumX (fv p f) (fv q g) = fm p q (fun i j => f i * g j).
Proof. unfold outer, fv, fm, tab2. rewrite map_tab. apply tab_ext. intros. now rewrite map_tab. Qed.
Lemma mdiag_fin p f : @mdiag NumX (fv p f) = fm p p (rdiag f).
Proof.
  unfold mdiag. rewrite fv_length. unfold fm. apply tab2_ext. intros i j Hi Hj. unfold rdiag.
  destruct (Nat.eqb i j); [now apply fv_get|reflexivity].
Qed.
Lemma diagonal_fin p F : @diagonal NumX (fm p p F) = fv p (fun i => F i i).
Proof.
  unfold diagonal. destruct p; [reflexivity|].
  rewrite fm_nrows, fm_ncols, Nat.min_id by lia. apply tab_ext. intros. now apply fm_get.
Qed.
Lemma mtrace_fin p F : @mtrace NumX (fm p p F) = Fin (rtrace p F).
Proof. unfold mtrace. now rewrite diagonal_fin, vsum_fin. Qed.
Lemma msum_fin p q F : @msum NumX (fm p q F) = Fin (rsum p (fun i => rsum q (F i))).
Proof.
  unfold msum, fm, tab2. rewrite map_tab.
  rewrite (tab_ext p _ (fun i => Fin (rsum q (F i)) : NumX)); [apply vsum_fin|]. intros. apply vsum_fin.
Qed.
Lemma transpose_fin p q F : (1 <= p)%nat -> @transpose NumX (fm p q F) = fm q p (rT F).
Proof.
  intros H. unfold transpose. rewrite fm_nrows, fm_ncols by auto. apply tab2_ext. intros. now rewrite fm_get.
Qed.
Lemma transpose_sq_fin p F : @transpose NumX (fm p p F) = fm p p (rT F).
Proof. destruct p; [reflexivity|]. apply transpose_fin. lia. Qed.
Lemma fm_row p q F i d : (i < p)%nat -> nth i (fm p q F) d = fv q (F i).
Proof. intros. unfold fm. now rewrite nth_tab2. Qed.
Lemma mcol_fin p q F j : (j < q)%nat -> @mcol NumX (fm p q F) j = fv p (fun i => F i j).
Proof.
  intros H. unfold mcol, fm, tab2. rewrite map_tab. apply tab_ext. intros. now rewrite nth_tab.
Qed.
Lemma matmul_fin p q r F G : (1 <= p)%nat -> (1 <= q)%nat ->
  @matmul NumX (fm p q F) (fm q r G) = Ok (fm p r (rmul q F G)).
Proof.
  intros Hp Hq. unfold matmul. rewrite fm_ncols, !fm_nrows, fm_ncols, Nat.eqb_refl by auto.
  f_equal. apply tab2_ext. intros i j Hi Hj. rewrite fm_row, mcol_fin, zipw_mul_fin, vsum_fin by auto.
  reflexivity.
Qed.
Lemma vecmat_fin p q f F : (1 <= p)%nat ->
  @vecmat NumX (fv p f) (fm p q F) = Ok (fv q (fun j => rsum p (fun i => f i * F i j))).
Proof.
  intros Hp. unfold vecmat. rewrite fv_length, fm_nrows, Nat.eqb_refl, fm_ncols by auto.
  f_equal. apply tab_ext. intros j Hj. now rewrite mcol_fin, zipw_mul_fin, vsum_fin.
Qed.
Lemma to_symmetric_fin p F : @to_symmetric NumX (fm p p F) = Ok (fm p p (fun i j => (F i j + F j i) / 2)).
Proof.
  unfold to_symmetric. rewrite transpose_sq_fin, madd_fin. cbn [bind].
  rewrite nofZ_fin, mdivs_fin by lra. reflexivity.
Qed.
Lemma to_symmetric_sym_fin p F : sym p F -> @to_symmetric NumX (fm p p F) = Ok (fm p p F).
Proof.
  intros H. rewrite to_symmetric_fin. f_equal. apply fm_ext. intros i j Hi Hj. rewrite (H j i) by auto. lra.
Qed.
(** the model's row-broadcast product [evecs * evals] *)
Lemma rows_vmul_fin p q F l : mapM (fun row => @vmul NumX row (fv q l)) (fm p q F) = Ok (fm p q (fun i j => F i j * l j)).
Proof.
  unfold fm at 1. unfold tab2. rewrite (mapM_tab _ p _ (fun i => fv q (fun j => F i j * l j))); [reflexivity|].
  intros i Hi. exact (vmul_fin q (F i) l).
Qed.
Lemma cov_to_corrcoef_fin p F : (forall i, (i < p)%nat -> 0 <= F i i) ->
  @cov_to_corrcoef NumX (fm p p F) = Ok (fm p p (fun i j => F i j / (sqrt (F i i * F j j) + e12))).
Proof.
  intros H. unfold cov_to_corrcoef. rewrite diagonal_fin, EPS_fin.
  assert (K : map (fun vi => map (fun vj => @nadd NumX (@nsqrt NumX (@nmul NumX vj vi)) (Fin e12))
                (fv p (fun i => F i i))) (fv p (fun i => F i i)) =
              fm p p (fun i j => sqrt (F i i * F j j) + e12)).
  { unfold fm, tab2. unfold fv at 2. rewrite map_tab. apply tab_ext. intros i Hi.
    unfold fv. rewrite map_tab. apply tab_ext. intros j Hj.
    rewrite mul_fin, sqrt_fin, add_fin by (apply Rmult_le_pos; auto). now rewrite (Rmult_comm (F j j)). }
  rewrite K. apply mdiv_fin. intros i j Hi Hj. pose proof (sqrt_pos (F i i * F j j)). pose proof e12_pos. lra.
Qed.
Lemma slice_fin a b p f : (a <= b)%nat -> (b <= p)%nat -> slice a b (fv p f) = fv (b - a) (fun i => f (a + i)%nat).
Proof. intros. unfold fv. now rewrite slice_tab. Qed.
Lemma mslice_fin a b c d p q F : (a <= b)%nat -> (b <= p)%nat -> (c <= d)%nat -> (d <= q)%nat ->
  @mslice NumX (fm p q F) a b c d = fm (b - a) (d - c) (fun i j => F (a + i)%nat (c + j)%nat).
Proof.
  intros. unfold mslice, fm, tab2. rewrite slice_tab by auto. rewrite map_tab. apply tab_ext. intros.
  now rewrite slice_tab.
Qed.

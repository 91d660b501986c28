(** * C95, continued: projection judges, the projection to positive definite, block pseudo-likelihood and Schur likelihood of research/metric_power.py *)
From Coq Require Import Reals ZArith String List Lia Lra Arith Bool.
From Verif Require Import Num Numpy LinalgModel BaseModel Estimators ListLemmas RMat LinSpec Fin RealSpec EmpFacts Spectral MatAlg Det Contracts LinalgReal BlockSpec ShrinkReal BlockGeom BlockReal BlockRun
  GaussSpec GaussReal ScoreReal AssessModel AssessSpec AssessReal AssessBlock Props_Emp Props_Assess Props_Improper Props_Research Props_Godambe ResearchModel ResearchRun MetricModel MetricReal Props_Metric.
Import ListNotations.
Local Open Scope R_scope.

(** ** Random k-dimensional projections *)
(** a subspace: its dimension and its rows *)
Definition subspace := (nat * rmat)%type.
Definition arr (p : nat) (w : subspace) : mat NumX := fm (fst w) p (snd w).
(** W x *)
Definition project (p : nat) (W : rmat) (x : obs) : obs := fun i => rdot p (W i) x.
Definition good_subspace (p : nat) (A : rmat) (w : subspace) : Prop := (1 <= fst w)%nat /\ pd (fst w) (congr p (snd w) A).

Lemma rows_matmul p k W xs : (1 <= p)%nat -> (1 <= k)%nat -> xs <> [] ->
  matmul (N := NumX) (map (fv p) xs) (transpose (fm k p W)) = Ok (map (fv k) (map (project p W) xs)).
Proof.
  intros Hp Hk Hx. assert (Hn : (1 <= length xs)%nat) by (destruct xs; cbn; [congruence|lia]).
  rewrite fm_of_rows, transpose_fin, matmul_fin by auto. f_equal. rewrite (fm_of_rows k (map (project p W) xs)), map_length. apply fm_ext. intros t i Ht Hi.
  unfold rmul, rT, at_. rewrite (nth_indep (map (project p W) xs) (fun _ => 0) (project p W (fun _ => 0))) by now rewrite map_length.
  rewrite map_nth. unfold project, rdot. apply rsum_ext. intros; ring.
Qed.
Lemma proj_cov p k W A : (1 <= p)%nat -> (1 <= k)%nat ->
  (WC <- matmul (N := NumX) (fm k p W) (fm p p A) ;; matmul WC (transpose (fm k p W))) = Ok (fm k k (congr p W A)).
Proof.
  intros Hp Hk. rewrite matmul_fin by auto. cbn [bind]. rewrite transpose_fin, matmul_fin by auto. f_equal. apply fm_ext. intros i j Hi Hj.
  unfold congr, rmul, rT. rewrite rsum_swap. apply rsum_ext. intros l Hl. rewrite <- rsum_scal_r. apply rsum_ext. intros; ring.
Qed.
Lemma projected_fin L p A w xs : lawful L -> (1 <= p)%nat -> xs <> [] -> good_subspace p A w -> exists B,
  inverse (fst w) (congr p (snd w) A) B /\
  projected_loglik L (fm p p A) (map (fv p) xs) (arr p w) =
    Ok (Fin (mean_loglik (fst w) (congr p (snd w) A) B (map (project p (snd w)) xs) + INR (fst w) / 2 * ln (2 * PI))).
Proof.
  destruct w as [k W]. intros HL Hp Hx [Hk HA]. cbn [fst snd arr] in *. destruct (pd_invertible k _ HA) as (B & HB). exists B. split; [exact HB|].
  change (arr p (k, W)) with (fm k p W). unfold projected_loglik. etransitivity; [rewrite (rows_matmul p k W xs Hp Hk Hx); reflexivity|]. cbn [bind]. pose proof (proj_cov p k W A Hp Hk) as E.
  destruct (matmul (fm k p W) (fm p p A)) as [WC|] eqn:EW; cbn [bind] in E |- *; [|discriminate]. rewrite E. cbn [bind].
  apply mp_loglik_fin; auto. destruct xs; [congruence|discriminate].
Qed.
(** the average, over the subspaces, of the log-density of the projected rows under the projected covariance *)
Theorem C95_projections (L : LinAlg NumX) p A subs xs : lawful L -> (1 <= p)%nat -> xs <> [] -> subs <> [] -> Forall (good_subspace p A) subs ->
  exists s, mp_kproj_loglik L (fm p p A) (map (fv p) xs) (map (arr p) subs) = Ok (Fin (lmean s)) /\
    Forall2 (fun w v => exists B, inverse (fst w) (congr p (snd w) A) B /\
      v = mean_loglik (fst w) (congr p (snd w) A) B (map (project p (snd w)) xs) + INR (fst w) / 2 * ln (2 * PI)) subs s.
Proof.
  intros HL Hp Hx Hs HF. unfold mp_kproj_loglik.
  assert (K : forall ws t, Forall (good_subspace p A) ws -> exists s, kproj_total L (fm p p A) (map (fv p) xs) (map (arr p) ws) (Fin t) = Ok (Fin (t + lsum s)) /\
    Forall2 (fun w v => exists B, inverse (fst w) (congr p (snd w) A) B /\
      v = mean_loglik (fst w) (congr p (snd w) A) B (map (project p (snd w)) xs) + INR (fst w) / 2 * ln (2 * PI)) ws s).
  { induction ws as [|w ws IH]; intros t HW.
    - exists []. split; [|constructor]. cbn. do 2 f_equal. unfold lsum. cbn. lra.
    - inversion HW; subst. destruct (projected_fin L p A w xs HL Hp Hx) as (B & HB & EB); auto. cbn [map kproj_total]. rewrite EB. cbn [bind]. rewrite add_fin.
      match goal with |- context [Fin (t + ?v)] => destruct (IH (t + v)) as (s & E1 & E2); auto; exists (v :: s) end.
      split; [rewrite E1; do 2 f_equal; unfold lsum; cbn; lra|]. constructor; eauto. }
  rewrite n0_fin. destruct (K subs 0 HF) as (s & E1 & E2). exists s. split; [|exact E2]. rewrite E1. cbn [bind]. rewrite map_length, nofn_fin.
  assert (LS : length subs = length s) by (clear - E2; induction E2; cbn; congruence). 
  rewrite py_div_fin by (apply not_0_INR; destruct subs; cbn; [congruence|lia]). unfold lmean. rewrite LS. do 2 f_equal. lra.
Qed.
Theorem C95_no_projections (N : Num) (L : LinAlg N) cov X : nleb (@n0 N) n0 = true -> nofn 0 = @n0 N -> mp_kproj_loglik L cov X [] = Err ZeroDivisionError.
Proof. intros H0 H1. unfold mp_kproj_loglik. cbn [kproj_total bind length]. rewrite H1. unfold py_div. now rewrite H0. Qed.
(** full dimension, orthonormal rows: the full log-likelihood *)
Lemma orth_congr_inverse p W A Ai : orth p W -> inverse p A Ai -> inverse p (congr p W A) (congr p W Ai).
Proof.
  intros [W1 W2] [I1 I2].
  assert (K : forall X Y, meq p p (rmul p X Y) rI -> meq p p (rmul p (congr p W X) (congr p W Y)) rI).
  { intros X Y H. 
    assert (E1 : meq p p (congr p W X) (rmul p W (rmul p X (rT W)))).
    { intros i j Hi Hj. unfold congr, rmul, rT. apply rsum_ext. intros k Hk. rewrite <- rsum_scal. apply rsum_ext. intros; ring. }
    assert (E2 : meq p p (congr p W Y) (rmul p W (rmul p Y (rT W)))).
    { intros i j Hi Hj. unfold congr, rmul, rT. apply rsum_ext. intros k Hk. rewrite <- rsum_scal. apply rsum_ext. intros; ring. }
    eapply meq_trans; [apply rmul_ext; [exact E1|exact E2]|].
    eapply meq_trans; [apply mul_assoc|]. eapply meq_trans; [apply rmul_ext; [apply meq_refl|apply mul_assoc]|].
    eapply meq_trans; [apply rmul_ext; [apply meq_refl|apply rmul_ext; [apply meq_refl|]]|].
    { eapply meq_trans; [apply meq_sym, mul_assoc|]. eapply meq_trans; [apply rmul_ext; [exact W1|apply meq_refl]|]. apply mul_I_l. }
    eapply meq_trans; [apply rmul_ext; [apply meq_refl|]|].
    { eapply meq_trans; [apply meq_sym, mul_assoc|]. eapply meq_trans; [apply rmul_ext; [exact H|apply meq_refl]|]. apply mul_I_l. }
    exact W2. }
  split; apply K; assumption.
Qed.
Lemma orth_congr p W A : meq p p (congr p W A) (rmul p W (rmul p A (rT W))).
Proof. intros i j Hi Hj. unfold congr, rmul, rT. apply rsum_ext. intros k Hk. rewrite <- rsum_scal. apply rsum_ext. intros; ring. Qed.
Lemma orth_congr_det p W A : orth p W -> rdet p (congr p W A) = rdet p A.
Proof.
  intros HW. rewrite (rdet_ext (orth_congr p W A)), !rdet_mul, rdet_T. transitivity (rdet p A * (rdet p W * rdet p W)); [ring|]. rewrite (rdet_orth HW). ring.
Qed.
Lemma orth_T_proj p W x : orth p W -> forall k, (k < p)%nat -> rsum p (fun i => project p W x i * W i k) = x k.
Proof.
  intros [W1 _] k Hk. unfold project, rdot. rewrite (rsum_ext p _ (fun i => rsum p (fun l => W i l * x l * W i k))) by (intros; now rewrite <- rsum_scal_r).
  rewrite rsum_swap. rewrite (rsum_ext p _ (fun l => if Nat.eqb k l then x l else 0)).
  - now rewrite rsum_delta'.
  - intros l Hl. rewrite (rsum_ext p _ (fun i => x l * (W i k * W i l))) by (intros; ring). rewrite rsum_scal.
    change (rsum p (fun i => W i k * W i l)) with (rmul p (rT W) W k l). rewrite W1 by auto. unfold rI. destruct (Nat.eqb k l); ring.
Qed.
Lemma orth_congr_qf p W B x : orth p W -> qf p (congr p W B) (project p W x) = qf p B x.
Proof.
  intros HW. unfold congr. rewrite (qf_congr p p W B). apply qf_ext; [apply meq_refl|]. intros k Hk. now apply orth_T_proj.
Qed.
Lemma orth_congr_pd p W A : orth p W -> pd p A -> pd p (congr p W A).
Proof.
  intros HW [S Q]. split.
  - intros i j Hi Hj. unfold congr. rewrite rsum_swap. apply rsum_ext. intros k Hk. apply rsum_ext. intros l Hl. rewrite (S l k) by auto. ring.
  - intros v (i & Hi & Hv). unfold congr. rewrite (qf_congr p p W A). apply Q.
    destruct (Classical_Prop.classic (exists k, (k < p)%nat /\ rsum p (fun i => v i * W i k) <> 0)) as [H|H]; [exact H|]. exfalso. apply Hv.
    assert (Z : forall k, (k < p)%nat -> rsum p (fun i => v i * W i k) = 0).
    { intros k Hk. destruct (Req_dec (rsum p (fun i => v i * W i k)) 0); auto. exfalso. apply H. eauto. }
    transitivity (rsum p (fun k => rsum p (fun a => v a * W a k) * W i k)).
    + rewrite (rsum_ext p _ (fun k => rsum p (fun a => v a * W a k * W i k))) by (intros; now rewrite <- rsum_scal_r). rewrite rsum_swap.
      rewrite (rsum_ext p _ (fun a => if Nat.eqb i a then v a else 0)); [now rewrite rsum_delta'|]. intros a Ha.
      rewrite (rsum_ext p _ (fun k => v a * (W i k * W a k))) by (intros; ring). rewrite rsum_scal.
      change (rsum p (fun k => W i k * W a k)) with (rmul p W (rT W) i a). rewrite (proj2 HW) by auto. unfold rI. destruct (Nat.eqb i a); ring.
    + apply rsum_zero. intros k Hk. rewrite Z by auto. ring.
Qed.
Lemma mean_loglik_orth p W A Ai B xs : xs <> [] -> orth p W -> inverse p A Ai -> inverse p (congr p W A) B ->
  mean_loglik p (congr p W A) B (map (project p W) xs) = mean_loglik p A Ai xs.
Proof.
  intros Hx HW HI HB. rewrite (mean_loglik_eq p A Ai xs Hx), mean_loglik_eq by (destruct xs; [congruence|discriminate]). rewrite orth_congr_det by auto. rewrite map_map.
  apply (f_equal (fun z => - (INR p * ln (2 * PI)) / 2 - ln (rdet p A) / 2 - z / 2)).
  apply (lmean_ext (fun x => qf p B (project p W x)) (qf p Ai)). intros x _. rewrite <- (orth_congr_qf p W Ai x HW). apply qf_meq.
  apply (inverse_unique p (congr p W A)); [exact HB|now apply orth_congr_inverse].
Qed.
Theorem C95_full_projections (L : LinAlg NumX) p A subs xs : lawful L -> (1 <= p)%nat -> xs <> [] -> subs <> [] -> pd p A -> Forall (orth p) subs ->
  mp_kproj_loglik L (fm p p A) (map (fv p) xs) (map (fm p p) subs) = mp_loglik L (fm p p A) (map (fv p) xs).
Proof.
  intros HL Hp Hx Hs HA HF. destruct (pd_invertible p A HA) as (Ai & HI). rewrite (mp_loglik_fin L HL p A Ai xs Hp HA HI Hx).
  destruct (C95_projections L p A (map (fun W => (p, W)) subs) xs HL Hp Hx) as (s & E & F).
  - destruct subs; [congruence|discriminate].
  - apply Forall_map. eapply Forall_impl; [|exact HF]. intros W HW. split; [exact Hp|]. now apply orth_congr_pd.
  - rewrite map_map in E. change (map (fun x => arr p (p, x)) subs) with (map (fm p p) subs) in E. rewrite E. apply (f_equal (fun z => Ok (Fin z))).
    assert (C : forall v, In v s -> v = mean_loglik p A Ai xs + INR p / 2 * ln (2 * PI)).
    { clear E. assert (HF' : Forall (orth p) subs) by exact HF. clear HF Hs. revert s F. induction HF' as [|W l HW _ IH]; intros s F v Hv; inversion F; subst; [destruct Hv|].
      destruct Hv as [->|Hv]; [|eapply IH; eauto]. cbn [fst snd] in *. destruct H1 as (B & HB & ->). now rewrite (mean_loglik_orth p W A Ai B xs Hx HW HI HB). }
    assert (NE : s <> []) by (intros ->; inversion F; destruct subs; [congruence|discriminate]).
    rewrite <- (map_id s). rewrite (lmean_ext (fun v => v) (fun _ => mean_loglik p A Ai xs + INR p / 2 * ln (2 * PI))) by exact C. now apply lmean_const.
Qed.

(** ** One-dimensional projections *)
Lemma concat_mean {A B} (f : A -> B -> R) (l : list A) (r : list B) : l <> [] -> r <> [] ->
  lmean (concat (map (fun a => map (f a) r) l)) = lmean (map (fun b => lmean (map (fun a => f a b) l)) r).
Proof.
  intros Hl Hr. assert (E1 : forall l, lsum (concat (map (fun a => map (f a) r) l)) = lsum (map (fun b => lsum (map (fun a => f a b) l)) r)).
  { induction l0 as [|a l0 IH]; cbn [map concat].
    - transitivity (lsum (map (fun _ : B => 0) r)); [rewrite lsum_const; unfold lsum; cbn; ring|reflexivity].
    - rewrite lsum_app, IH, <- lsum_map_plus. apply lsum_map_ext. intros b _. reflexivity. }
  assert (E2 : length (concat (map (fun a => map (f a) r) l)) = (length l * length r)%nat).
  { clear. induction l as [|a l IH]; [reflexivity|]. cbn [map concat]. rewrite app_length, map_length, IH. reflexivity. }
  assert (N1 : INR (length l) <> 0) by now apply lmean_nz. assert (N2 : INR (length r) <> 0) by now apply lmean_nz.
  unfold lmean at 1 2. rewrite E1, E2, map_length, mult_INR. unfold lmean.
  rewrite (lsum_map_ext (fun b => lsum (map (fun a => f a b) l) / INR (length (map (fun a => f a b) l))) (fun b => lsum (map (fun a => f a b) l) * / INR (length l))) by (intros; now rewrite map_length).
  rewrite lsum_map_scal_r. field. auto.
Qed.
(** the average, over directions and rows, of the one-dimensional log-densities *)
Theorem C95_random_projection (L : LinAlg NumX) (log : NumX -> NumX) p A ds xs : is_log log -> (1 <= p)%nat -> xs <> [] -> ds <> [] ->
  Forall (fun d => 0 < qf p A d) ds ->
  mp_random_projection log (fm p p A) (map (fv p) xs) (map (fv p) ds) =
    Ok (Fin (lmean (map (fun d => lmean (map (fun x => - (1 / 2) * ln (qf p A d) - 1 / 2 * (rdot p d x * rdot p d x) / qf p A d) xs)) ds))).
Proof.
  intros Hlog Hp Hx Hd HF. unfold mp_random_projection.
  rewrite (mapM_map_ok _ (fv p) (fun d => Fin (qf p A d))) by (intros; now apply einsum_quad_fin). cbn [bind].
  assert (Hn : (1 <= length ds)%nat) by (destruct ds; cbn; [congruence|lia]).
  rewrite (fm_of_rows p ds). etransitivity; [rewrite (rows_matmul p (length ds) (at_ ds) xs Hp Hn Hx); reflexivity|]. cbn [bind].
  set (k := length ds) in *. set (q := fun i => qf p A (at_ ds i)).
  assert (EP : map (fun d => (Fin (qf p A d) : NumX)) ds = fv k q).
  { unfold fv, q. rewrite (tab_nth ds (fun _ => 0)) at 1. fold k. rewrite map_tab. reflexivity. }
  assert (Q0 : forall i, (i < k)%nat -> 0 < q i) by (intros i Hi; unfold q, at_; rewrite Forall_forall in HF; apply HF; now apply nth_In).
  assert (EM : mapM (fun row => t <- vdiv (map (fun z => nmul phalf (nsq z)) row) (fv k q) ;; vsub (map (fun v => nmul mhalf (log v)) (fv k q)) t) (map (fv k) (map (project p (at_ ds)) xs)) =
    Ok (map (fun x => fv k (fun i => - (1 / 2) * ln (q i) - 1 / 2 * (rdot p (at_ ds i) x * rdot p (at_ ds i) x) / q i)) xs)).
  { rewrite map_map. apply (mapM_map_ok _ (fun x => fv k (project p (at_ ds) x))). intros x _.
    rewrite (map_fin k _ (fun i => 1 / 2 * (project p (at_ ds) x i * project p (at_ ds) x i))) by (intros; rewrite phalf_fin; reflexivity).
    rewrite vdiv_fin by (intros i Hi; pose proof (Q0 i Hi); lra). cbn [bind].
    rewrite (map_fin k _ (fun i => - (1 / 2) * ln (q i))) by (intros i Hi; rewrite mhalf_fin, Hlog by auto; reflexivity).
    rewrite vsub_fin. reflexivity. }
  etransitivity; [apply (f_equal (fun pv => (ll <- mapM (fun row => t <- vdiv (map (fun z => nmul phalf (nsq z)) row) pv ;; vsub (map (fun v => nmul mhalf (log v)) pv) t) (map (fv k) (map (project p (at_ ds)) xs)) ;; Ok (vmean (concat ll)))) EP)|].
  rewrite EM. cbn [bind]. apply (f_equal (@Ok _)).
  set (f := fun x d => - (1 / 2) * ln (qf p A d) - 1 / 2 * (rdot p d x * rdot p d x) / qf p A d).
  assert (EC : concat (map (fun x => fv k (fun i => - (1 / 2) * ln (q i) - 1 / 2 * (rdot p (at_ ds i) x * rdot p (at_ ds i) x) / q i)) xs) = map (fun z : R => (Fin z : NumX)) (concat (map (fun x => map (f x) ds) xs))).
  { rewrite concat_map, map_map. f_equal. apply map_ext. intros x. rewrite map_map. symmetry. rewrite (tab_nth ds (fun _ => 0)) at 1. fold k. rewrite map_tab. reflexivity. }
  etransitivity; [apply (f_equal (@vmean NumX) EC)|]. rewrite (vmean_map (fun z => z)).
  - rewrite map_id, concat_mean by auto. reflexivity.
  - intros E. apply (f_equal (@length _)) in E. revert E. destruct xs as [|x xs]; [congruence|]. destruct ds; [congruence|]. cbn. lia.
Qed.
(** the same as scoring the one-row subspaces *)
Theorem C95_random_projection_is_1d (L : LinAlg NumX) (log : NumX -> NumX) p A ds xs : lawful L -> is_log log -> (1 <= p)%nat -> xs <> [] -> ds <> [] ->
  Forall (fun d => 0 < qf p A d) ds ->
  mp_random_projection log (fm p p A) (map (fv p) xs) (map (fv p) ds) = mp_kproj_loglik L (fm p p A) (map (fv p) xs) (map (fun d => [fv p d]) ds).
Proof.
  intros HL Hlog Hp Hx Hd HF. rewrite C95_random_projection by auto.
  assert (P1 : forall d, 0 < qf p A d -> pd 1 (congr p (fun _ => d) A)).
  { intros d H. split.
    - intros i j Hi Hj. replace i with O by lia. now replace j with O by lia.
    - intros v (i & Hi & Hv). replace i with O in Hv by lia. unfold congr. rewrite (qf_congr 1 p (fun _ => d) A).
      replace (qf p A (fun k => rsum 1 (fun _ => v O * d k))) with (v O * v O * qf p A d).
      2:{ unfold qf. rewrite <- rsum_scal. apply rsum_ext. intros a _. rewrite <- rsum_scal. apply rsum_ext. intros b _. cbn. ring. }
      assert (E : qf p A (fun k => rsum 1 (fun i => v i * d k)) = v O * v O * qf p A d).
      { unfold qf. rewrite <- rsum_scal. apply rsum_ext. intros a _. rewrite <- rsum_scal. apply rsum_ext. intros b _. cbn. ring. }
      rewrite E. apply Rmult_lt_0_compat; auto. pose proof (Rsqr_pos_lt _ Hv) as Q. exact Q. }
  destruct (C95_projections L p A (map (fun d => (1%nat, fun _ => d)) ds) xs HL Hp Hx) as (s & E & F).
  - destruct ds; [congruence|discriminate].
  - apply Forall_map. eapply Forall_impl; [|exact HF]. intros d H. split; [cbn; lia|]. now apply P1.
  - rewrite map_map in E. change (map (fun x => arr p (1%nat, fun _ => x)) ds) with (map (fun d => [fv p d]) ds) in E. rewrite E. apply (f_equal (fun z => Ok (Fin (lmean z)))).
    clear E Hd. revert s F. induction HF as [|d ds H HF' IH]; intros s F; inversion F; subst; [reflexivity|]. cbn [map]. f_equal; [|now apply IH].
    cbn [fst snd] in *. destruct H2 as (B & HB & ->). rewrite mean_loglik_eq by (destruct xs; [congruence|discriminate]).
    assert (D : rdet 1 (congr p (fun _ => d) A) = qf p A d).
    { assert (M : meq 1 1 (congr p (fun _ => d) A) (rdiag (fun _ => qf p A d))).
      { intros i j Hi Hj. replace i with O by lia. replace j with O by lia. reflexivity. }
      rewrite (rdet_ext M), rdet_diag. cbn. ring. }
    assert (BB : B O O = / qf p A d).
    { destruct HB as [HB _]. specialize (HB O O ltac:(lia) ltac:(lia)). unfold rmul in HB. cbn [rsum] in HB. unfold rI in HB. cbn [Nat.eqb] in HB.
      change (congr p (fun _ => d) A O O) with (qf p A d) in HB. apply (Rmult_eq_reg_l (qf p A d)); [|lra]. rewrite Rinv_r by lra. lra. }
    rewrite D, map_map. rewrite (lmean_ext (fun x => qf 1 B (project p (fun _ => d) x)) (fun x => / qf p A d * (rdot p d x * rdot p d x))).
    2:{ intros x _. unfold qf at 1, project. cbn [rsum]. rewrite BB. ring. }
    rewrite lmean_scal. rewrite (lmean_ext _ (fun x => - (1 / 2) * ln (qf p A d) + (- (1 / 2) * / qf p A d) * (rdot p d x * rdot p d x))) by (intros; field; lra).
    rewrite lmean_plus, lmean_const, lmean_scal by auto. cbn [INR]. lra.
Qed.

(** ** _project_pd *)
(** Eigenvalues below 1/1000 of the largest one are raised to it; nothing else changes.  A positive definite matrix whose condition
    number is at most 1000 is returned as it is; a matrix with no positive eigenvalue becomes a non-positive multiple of the identity. *)
Definition top_eigenvalue (p : nat) (A : rmat) (t : R) : Prop :=
  (forall v, qf p A v <= t * rdot p v v) /\ exists v, rdot p v v = 1 /\ qf p A v = t.
Theorem C95_project_pd (L : LinAlg NumX) p A : lawful L -> (1 <= p)%nat -> exists t P,
  project_pd L (fm p p A) = Ok (fm p p P) /\ sym p P /\ top_eigenvalue p (symm A) t /\
  (0 < t -> pd p P /\ forall v, t / 1000 * rdot p v v <= qf p P v <= t * rdot p v v) /\
  (0 < t -> bounded_below p (t / 1000) (symm A) -> meq p p P (symm A)) /\
  (forall v, qf p (symm A) v <= qf p P v) /\
  (t <= 0 -> meq p p P (fun i j => t / 1000 * rI i j)).
Proof.
  intros HL Hp. destruct (ppd_spec L HL p A Hp) as (U & lam & k & Hk & He & Mk & E). pose proof (proj1 He) as HU. pose proof (eig_spec p _ U lam He) as ES.
  exists (lam k), (spec p U (fun i => Rmax (lam i) (1 / 1000 * lam k))). split; [exact E|]. split; [apply spec_sym|].
  assert (UB : forall f v, (forall i, (i < p)%nat -> f i <= lam k) -> qf p (spec p U f) v <= lam k * rdot p v v).
  { intros f v Hf. rewrite qf_spec, <- (orth_norm p U v HU). unfold rdot. rewrite <- rsum_scal. apply rsum_le. intros i Hi. pose proof (Hf i Hi).
    pose proof (pow2_ge_0 (rapp p (rT U) v i)). nra. }
  split. { split.
    - intros v. rewrite (qf_meq p _ _ v ES). now apply UB.
    - exists (fun i => U i k). destruct (spec_col p U lam k HU Hk) as [C1 C2]. split; [exact C2|]. now rewrite (qf_meq p _ _ _ ES). }
  split. { intros H. split.
    - apply (bb_pd p (1 / 1000 * lam k)); [lra|]. apply spec_bb; auto. intros i _. apply Rmax_r.
    - intros v. split.
      + destruct (spec_bb p U (fun i => Rmax (lam i) (1 / 1000 * lam k)) (1 / 1000 * lam k) HU) as [_ B]; [intros; apply Rmax_r|]. specialize (B v). lra.
      + apply UB. intros i Hi. apply Rmax_lub; [now apply Mk|lra]. }
  split. { intros H HB. eapply meq_trans; [|apply meq_sym; exact ES]. apply spec_ext. intros i Hi. rewrite Rmax_left; [reflexivity|].
    pose proof (spec_bb_inv p U lam (lam k / 1000) HU (bb_ext p _ _ _ ES HB) i Hi). lra. }
  split. { intros v. rewrite (qf_meq p _ _ v ES), !qf_spec. apply rsum_le. intros i Hi. pose proof (Rmax_l (lam i) (1 / 1000 * lam k)).
    pose proof (pow2_ge_0 (rapp p (rT U) v i)). nra. }
  intros H. assert (V : veq p (fun i => Rmax (lam i) (1 / 1000 * lam k)) (fun i => lam k / 1000 * 1)).
  { intros i Hi. rewrite Rmax_right; [lra|]. pose proof (Mk i Hi). lra. }
  eapply meq_trans; [apply spec_ext; exact V|]. intros i j Hi Hj. rewrite <- (spec_one p U (fun _ => 1) HU (fun _ _ => eq_refl) i j Hi Hj). unfold spec. rewrite <- rsum_scal. apply rsum_ext. intros; ring.
Qed.

(** ** Block pseudo-likelihood *)
(** condition number at most 1000: all the eigenvalues are between t/1000 and t *)
Definition well_conditioned (p : nat) (A : rmat) (t : R) : Prop := 0 < t /\ bounded_below p (t / 1000) A /\ forall v, qf p A v <= t * rdot p v v.
Lemma project_fix L p A t : lawful L -> (1 <= p)%nat -> well_conditioned p A t -> project_pd L (fm p p A) = Ok (fm p p A).
Proof.
  intros HL Hp (Ht & HB & HU). assert (SA : meq p p (symm A) A) by (apply symm_id, HB).
  destruct (C95_project_pd L p A HL Hp) as (t' & P & -> & _ & (_ & v & V1 & V2) & _ & F & _). f_equal. apply fm_ext.
  assert (t' <= t). { rewrite <- V2, (qf_meq p _ _ v SA). specialize (HU v). rewrite V1 in HU. lra. }
  assert (0 < t'). { rewrite <- V2, (qf_meq p _ _ v SA). pose proof (proj2 HB v) as Q. rewrite V1 in Q. lra. }
  eapply meq_trans; [apply F; auto|exact SA]. apply (bb_ext p _ _ _ (meq_sym _ _ _ _ SA)). apply (bb_le p (t / 1000)); [lra|exact HB].
Qed.
Lemma wc_pd p A t : well_conditioned p A t -> pd p A.
Proof. intros (H & HB & _). apply (bb_pd p (t / 1000)); [lra|exact HB]. Qed.
Lemma wc_block p A t s n : (s + n <= p)%nat -> well_conditioned p A t -> well_conditioned n (block_at s A) t.
Proof.
  intros Hs (H & [HS HB] & HU). split; [exact H|].
  set (emb := fun (v : nat -> R) i => if andb (s <=? i)%nat (i <? s + n)%nat then v (i - s)%nat else 0).
  assert (G : forall (f : nat -> R), (forall i, (i < s)%nat \/ (s + n <= i)%nat -> f i = 0) -> rsum p f = rsum n (fun i => f (s + i)%nat)).
  { intros f Hf. replace p with (s + (n + (p - (s + n))))%nat by lia. rewrite rsum_split, rsum_zero by (intros; apply Hf; lia).
    rewrite rsum_split, (rsum_zero (p - (s + n))) by (intros; apply Hf; lia). ring. }
  assert (E0 : forall v i, (i < s)%nat \/ (s + n <= i)%nat -> emb v i = 0).
  { intros v i Hi. unfold emb. destruct (Nat.leb_spec s i), (Nat.ltb_spec i (s + n)); cbn; auto; lia. }
  assert (E1 : forall v i, (i < n)%nat -> emb v (s + i)%nat = v i).
  { intros v i Hi. unfold emb. destruct (Nat.leb_spec s (s + i)), (Nat.ltb_spec (s + i) (s + n)); cbn; try lia. f_equal. lia. }
  assert (Q : forall v, qf p A (emb v) = qf n (block_at s A) v).
  { intros v. unfold qf. rewrite G.
    - apply rsum_ext. intros i Hi. rewrite G; [|intros j Hj; rewrite (E0 v j Hj); ring]. apply rsum_ext. intros j Hj. rewrite !E1 by auto. reflexivity.
    - intros i Hi. apply rsum_zero. intros j _. rewrite (E0 v i Hi). ring. }
  assert (D : forall v, rdot p (emb v) (emb v) = rdot n v v).
  { intros v. unfold rdot. rewrite G; [|intros i Hi; rewrite (E0 v i Hi); ring]. apply rsum_ext. intros i Hi. now rewrite E1. }
  split; [split|].
  - intros i j Hi Hj. unfold block_at. apply HS; lia.
  - intros v. rewrite <- Q, <- D. apply HB.
  - intros v. rewrite <- Q, <- D. apply HU.
Qed.
(** the research function and the shipped BlockPseudoLikelihood agree, constant included, on every estimate with a condition number of at most 1000 *)
Theorem C95_block_pseudo_is_the_assessor (L : LinAlg NumX) p bs A t xs T : lawful L -> (1 <= p)%nat -> (1 <= bs)%nat -> xs <> [] -> well_conditioned p A t ->
  mp_block_pseudo_loglik L (fm p p A) (map (fv p) xs) (Z.of_nat bs) = assess L (BlockPseudoLikelihood (Z.of_nat bs)) (fm p p A) (Some (map (fv p) xs)) T.
Proof.
  intros HL Hp Hb Hx HA. pose proof (wc_pd p A t HA) as PA. cbn [assess]. unfold mp_block_pseudo_loglik, block_pseudo. rewrite fm_nrows.
  destruct (Z.eqb_spec (Z.of_nat bs) 0); [lia|]. destruct (Z.ltb_spec (Z.of_nat bs) 0); [lia|]. rewrite Nat2Z.id.
  destruct (nblocks_spec p bs Hp Hb) as [N1 N2]. unfold starts. fold (nblocks p bs). set (nn := nblocks p bs) in *.
  assert (ACC : forall f g l t0, (forall s, In s l -> f s = g s) -> accum (N := NumX) f l t0 = accum g l t0).
  { intros f g l. induction l as [|s l IH]; intros t0 HQ; [reflexivity|]. cbn [accum]. rewrite (HQ s) by now left. destruct (g s); cbn [bind]; auto. apply IH. intros; apply HQ; now right. }
  apply ACC. intros s Hs. apply in_map_iff in Hs. destruct Hs as (k & <- & Hk). apply in_seq in Hk.
  assert (K1 : (k * bs <= (nn - 1) * bs)%nat) by (apply Nat.mul_le_mono_r; lia). set (e := Nat.min (k * bs + bs) p). assert (S1 : (k * bs < e <= p)%nat) by (unfold e; lia).
  cbv zeta. rewrite mslice_fin by lia. fold (block_at (k * bs) A). set (m := (e - k * bs)%nat). assert (Hm : (1 <= m)%nat) by (unfold m; lia).
  assert (EX : map (slice (k * bs) e) (map (fv p) xs) = map (fv m) (map (coords_from (k * bs)) xs)).
  { rewrite !map_map. apply map_ext. intros x. rewrite slice_fin by lia. reflexivity. }
  assert (WB : well_conditioned m (block_at (k * bs) A) t) by (apply (wc_block p); [unfold m; lia|exact HA]). pose proof (wc_pd m _ t WB) as PB.
  assert (XN : map (coords_from (k * bs)) xs <> []) by (destruct xs; [congruence|discriminate]).
  etransitivity; [|symmetry; etransitivity; [exact (f_equal (gaussian_loglik L _) EX)|]; apply (loglik_fin L HL m _ _ Hm PB XN)].
  replace (map (slice (k * bs) e) (map (fv p) xs)) with (map (fv m) (map (coords_from (k * bs)) xs)) by (symmetry; exact EX).
  rewrite (project_fix L m _ t HL Hm WB). cbn [bind]. rewrite slogdet_pd by auto. cbn [bind]. destruct (inv_ok L HL m _ Hm PB) as (B & -> & HB). cbn [bind].
  rewrite (mapM_map_ok _ (fv m) (fun x => Fin (qf m B x))) by (intros; now apply einsum_quad_fin). cbn [bind].
  rewrite fm_nrows, nofn_fin, (law_log2pi L HL), mhalf_fin, map_map. apply (f_equal (@Ok _)).
  pose proof (tinv_inverse L HL m _ Hm (proj1 PB) (pd_invertible m _ PB)) as HT.
  rewrite <- vmean_map by auto. f_equal. apply map_ext_in. intros x _. rewrite mul_fin, !add_fin, mul_fin. f_equal. unfold gauss_logpdf.
  rewrite (qf_ext m (tinv L m (block_at (k * bs) A)) B (fun i => x i - 0) x); [lra|exact (inverse_unique m _ _ _ HT HB)|intros; ring].
Qed.
(** Beyond that the floor bites, even with one block: these two estimates have the same pseudo-likelihood on any data, whatever their likelihoods. *)
Definition tiny (c : R) : rmat := rdiag (fun i => if Nat.eqb i 0 then 1 else c).
Lemma tiny_project L c : lawful L -> 0 < c <= 1 / 1000 -> project_pd L (fm 2 2 (tiny c)) = Ok (fm 2 2 (tiny (1 / 1000))).
Proof.
  intros HL Hc. assert (SY : sym 2 (tiny c)) by (intros i j _ _; unfold tiny, rdiag; rewrite (Nat.eqb_sym j i); destruct (Nat.eqb_spec i j) as [->|]; reflexivity).
  assert (SA : meq 2 2 (symm (tiny c)) (tiny c)) by now apply symm_id.
  destruct (ppd_spec L HL 2 (tiny c) ltac:(lia)) as (U & lam & k & Hk & He & Mk & ->). f_equal. apply fm_ext. apply (eig_of_ext 2 _ _ U lam SA) in He.
  pose proof (proj1 He) as HU. pose proof (eig_spec 2 _ U lam He) as ES.
  (* the eigenvalues are 1 and c *)
  assert (CH : forall k, (k < 2)%nat -> (lam k = 1 /\ U 1%nat k = 0) \/ (lam k = c /\ U O k = 0)).
  { intros m Hm. assert (EV : forall i, (i < 2)%nat -> rsum 2 (fun j => tiny c i j * U j m) = lam m * U i m).
    { intros i Hi. rewrite (rsum_ext 2 _ (fun j => rsum 2 (fun l => U i l * lam l * (U j l * U j m)))).
      - rewrite rsum_swap. rewrite (rsum_ext 2 _ (fun l => if Nat.eqb l m then U i l * lam l else 0)); [rewrite rsum_delta by auto; ring|].
        intros l Hl. rewrite rsum_scal. change (rsum 2 (fun j => U j l * U j m)) with (rmul 2 (rT U) U l m). rewrite (proj1 HU l m Hl Hm). unfold rI. destruct (Nat.eqb l m); ring.
      - intros j Hj. rewrite (proj2 He i j Hi Hj). rewrite <- rsum_scal_r. apply rsum_ext. intros; ring. }
    pose proof (EV O ltac:(lia)) as E0. pose proof (EV 1%nat ltac:(lia)) as E1. unfold tiny, rdiag in E0, E1. cbn in E0, E1.
    assert (NN : U O m * U O m + U 1%nat m * U 1%nat m = 1) by (pose proof (proj1 HU m m Hm Hm) as Q; unfold rmul, rT, rI in Q; rewrite Nat.eqb_refl in Q; cbn in Q; lra).
    assert (Z0 : (lam m - 1) * U O m = 0) by lra. assert (Z1 : (lam m - c) * U 1%nat m = 0) by lra.
    apply Rmult_integral in Z0. apply Rmult_integral in Z1. destruct Z0 as [Z0|Z0], Z1 as [Z1|Z1]; [lra|left; split; lra|right; split; lra|].
    rewrite Z0, Z1 in NN. lra. }
  assert (LK : lam k = 1).
  { destruct (CH k Hk) as [[E _]|[E _]]; [exact E|]. exfalso.
    assert (ALL : forall m, (m < 2)%nat -> U O m = 0). { intros m Hm. destruct (CH m Hm) as [[E1 _]|[_ E1]]; [|exact E1]. pose proof (Mk m Hm). lra. }
    pose proof (proj2 HU O O ltac:(lia) ltac:(lia)) as Q. unfold rmul, rT, rI in Q. cbn in Q. rewrite (ALL O), (ALL 1%nat) in Q by lia. lra. }
  rewrite LK.
  assert (V : veq 2 (fun i => Rmax (lam i) (1 / 1000 * 1)) (fun i => lam i + (1 / 1000 - c) * ((1 - lam i) / (1 - c)))).
  { intros i Hi. destruct (CH i Hi) as [[-> _]|[-> _]]; [rewrite Rmax_left by lra|rewrite Rmax_right by lra]; field; lra. }
  eapply meq_trans; [apply spec_ext; exact V|]. intros i j Hi Hj.
  transitivity (spec 2 U lam i j + (1 / 1000 - c) / (1 - c) * (rI i j - spec 2 U lam i j)).
  - rewrite <- (spec_one 2 U (fun _ => 1) HU (fun _ _ => eq_refl) i j Hi Hj). unfold spec. rewrite <- rsum_minus, <- rsum_scal, <- rsum_plus. apply rsum_ext. intros l _. field. lra.
  - rewrite <- (ES i j Hi Hj). unfold tiny, rdiag, rI. destruct (Nat.eqb i j); [|field; lra]. destruct (Nat.eqb i 0); field; lra.
Qed.
Theorem C95_floor_hides_small_eigenvalues (L : LinAlg NumX) c d X bs : lawful L -> 0 < c <= 1 / 1000 -> 0 < d <= 1 / 1000 -> (2 <= bs)%nat ->
  mp_block_pseudo_loglik L (fm 2 2 (tiny c)) X (Z.of_nat bs) = mp_block_pseudo_loglik L (fm 2 2 (tiny d)) X (Z.of_nat bs).
Proof.
  intros HL Hc Hd Hb. unfold mp_block_pseudo_loglik. rewrite !fm_nrows. destruct (Z.eqb_spec (Z.of_nat bs) 0); [lia|]. destruct (Z.ltb_spec (Z.of_nat bs) 0); [lia|]. rewrite Nat2Z.id.
  assert (ST : starts 2 bs = [0%nat]).
  { unfold starts. replace ((2 + bs - 1) / bs)%nat with 1%nat; [reflexivity|]. apply (Nat.div_unique _ _ _ 1%nat); lia. }
  rewrite ST. cbn [accum]. replace (Nat.min (0 + bs) 2) with 2%nat by lia. rewrite !mslice_fin by lia.
  assert (B0 : forall e, fm (2 - 0) (2 - 0) (fun i j => tiny e (0 + i)%nat (0 + j)%nat) = fm 2 2 (tiny e)) by reflexivity.
  rewrite (B0 c), (B0 d), (tiny_project L c HL Hc), (tiny_project L d HL Hd). reflexivity.
Qed.

(** ** Schur likelihood *)
(** cross-block entries times gamma, for any labelling of the variables by blocks *)
Definition damped_by (lbl : list nat) (g : R) (A : rmat) : rmat := fun i j => if Nat.eqb (nth i lbl 0%nat) (nth j lbl 0%nat) then A i j else g * A i j.
Theorem C95_schur (L : LinAlg NumX) p lbl g A X : length lbl = p ->
  mp_schur_loglik L (fm p p A) X lbl (Fin g) = (c <- project_pd L (fm p p (damped_by lbl g A)) ;; mp_loglik L c X).
Proof.
  intros Hl. unfold mp_schur_loglik. rewrite Hl. unfold damp. rewrite check_shape_fin. cbn [bind]. apply (f_equal (fun m => bind (project_pd L m) (fun c => mp_loglik L c X))).
  apply tab2_ext. intros i j Hi Hj. rewrite fm_get by auto. unfold cross_of, damped_by. destruct (Nat.eqb _ _); cbn [negb]; auto. rewrite mul_fin. f_equal. ring.
Qed.
(** gamma = 1: the full likelihood, if the condition number is at most 1000 *)
Theorem C95_schur_gamma_one (L : LinAlg NumX) p lbl A t X : lawful L -> (1 <= p)%nat -> length lbl = p -> well_conditioned p A t ->
  mp_schur_loglik L (fm p p A) X lbl (Fin 1) = mp_loglik L (fm p p A) X.
Proof.
  intros HL Hp Hl HA. rewrite (C95_schur L p lbl 1 A X Hl).
  assert (E : fm p p (damped_by lbl 1 A) = fm p p A) by (apply fm_ext; intros i j _ _; unfold damped_by; destruct (Nat.eqb _ _); ring).
  rewrite E, (project_fix L p A t HL Hp HA). reflexivity.
Qed.
(** with the shipped block structure and linear interpolation it is the shipped SchurLikelihood plus p/2 log(2 pi), for any damped matrix with condition number at
    most 1000 and no eigenvalue under the shipped floor 1e-8 *)
Theorem C95_schur_is_the_assessor (L : LinAlg NumX) p nb g A t (xs : list obs) (T : option (mat NumX)) : lawful L -> (1 <= p)%nat -> (1 <= nb)%Z -> xs <> [] ->
  well_conditioned p (damped p (blocks nb p) g A) t -> e8 <= t / 1000 -> exists s,
  assess L (SchurLikelihood (N := NumX) (Fin g) nb "linear"%string) (fm p p A) (Some (map (fv p) xs)) T = Ok (Fin s) /\
  mp_schur_loglik L (fm p p A) (map (fv p) xs) (tab p (block_of p (blocks nb p))) (Fin g) = Ok (Fin (s + INR p / 2 * ln (2 * PI))).
Proof.
  intros HL Hp Hn Hx HA He. set (D := damped p (blocks nb p) g A) in *. pose proof (wc_pd p D t HA) as PD.
  destruct (C95_loglik_is_the_assessor L p D xs T HL Hp Hx PD) as (s & E1 & E2). exists s. split.
  - cbn [assess]. rewrite (schur_lik_linear L HL p g nb "linear"%string A _ Hp Hn ltac:(discriminate)). fold D. cbn [assess] in E1. rewrite <- E1.
    apply (f_equal (fun m => gaussian_loglik L m (map (fv p) xs))). apply fm_ext. assert (SD : meq p p (symm D) D) by (apply symm_id, PD).
    eapply meq_trans; [apply (mpd_fix L HL p D Hp)|exact SD]. apply (bb_ext p _ _ _ (meq_sym _ _ _ _ SD)). apply (bb_le p (t / 1000)); [exact He|apply HA].
  - unfold mp_schur_loglik. rewrite tab_length. etransitivity; [apply (f_equal (fun r => bind r (fun c => bind (project_pd L c) (fun c => mp_loglik L c (map (fv p) xs)))) (damp_fin p (blocks nb p) g A))|].
    cbn [bind]. fold D. rewrite (project_fix L p D t HL Hp HA). exact E2.
Qed.

(** "block_size == p recovers the full likelihood" (docstring) fails beyond condition number 1000: with one block of all the variables the judge below
    is indifferent between two estimates which the full likelihood tells apart. *)
Lemma tiny_pd c : 0 < c -> pd 2 (tiny c).
Proof.
  intros H. split.
  - intros i j _ _. unfold tiny, rdiag. rewrite (Nat.eqb_sym j i). destruct (Nat.eqb_spec i j) as [->|]; reflexivity.
  - intros v (i & Hi & Hv). assert (E : qf 2 (tiny c) v = v O * v O + c * (v 1%nat * v 1%nat)) by (unfold qf, tiny, rdiag; cbn; ring). rewrite E.
    pose proof (Rle_0_sqr (v O)) as P0. pose proof (Rle_0_sqr (v 1%nat)) as P1. pose proof (Rsqr_pos_lt _ Hv) as Q. unfold Rsqr in *.
    destruct i as [|[|]]; [| |lia].
    + assert (0 <= c * (v 1%nat * v 1%nat)) by (apply Rmult_le_pos; lra). lra.
    + assert (0 < c * (v 1%nat * v 1%nat)) by (apply Rmult_lt_0_compat; lra). lra.
Qed.
Lemma tiny_inverse c : 0 < c -> inverse 2 (tiny c) (tiny (/ c)).
Proof.
  intros H. split; intros i j Hi Hj; destruct i as [|[|i]]; try lia; destruct j as [|[|j]]; try lia; unfold rmul, tiny, rdiag, rI; cbn; field; lra.
Qed.
Lemma tiny_det c : rdet 2 (tiny c) = c.
Proof. unfold tiny. rewrite rdet_diag. cbn. ring. Qed.
Theorem C95_one_block_is_not_the_likelihood (L : LinAlg NumX) : lawful L -> exists A B, pd 2 A /\ pd 2 B /\
  mp_block_pseudo_loglik L (fm 2 2 A) (map (fv 2) four_obs) 2 = mp_block_pseudo_loglik L (fm 2 2 B) (map (fv 2) four_obs) 2 /\
  agrees (fun c => mp_loglik L c (map (fv 2) four_obs)) (fm 2 2 A) (fm 2 2 B) = Ok true /\
  agrees (fun c => mp_block_pseudo_loglik L c (map (fv 2) four_obs) 2) (fm 2 2 A) (fm 2 2 B) <> Ok true.
Proof.
  intros HL. exists (tiny (1 / 1000)), (tiny (1 / 2000)).
  pose proof (C95_floor_hides_small_eigenvalues L (1 / 1000) (1 / 2000) (map (fv 2) four_obs) 2 HL ltac:(lra) ltac:(lra) ltac:(lia)) as E. change (Z.of_nat 2) with 2%Z in E.
  split; [apply tiny_pd; lra|]. split; [apply tiny_pd; lra|]. split; [exact E|]. split.
  - unfold agrees. assert (NE : four_obs <> []) by discriminate.
    rewrite (mp_loglik_fin L HL 2 _ _ four_obs ltac:(lia) (tiny_pd (1 / 1000) ltac:(lra)) (tiny_inverse (1 / 1000) ltac:(lra)) NE). cbn [bind].
    rewrite (mp_loglik_fin L HL 2 _ _ four_obs ltac:(lia) (tiny_pd (1 / 2000) ltac:(lra)) (tiny_inverse (1 / 2000) ltac:(lra)) NE). cbn [bind].
    rewrite ltb_fin. unfold Rltb. rewrite !mean_loglik_eq, !tiny_det by exact NE.
    assert (Q : forall c, lmean (map (qf 2 (tiny (/ c))) four_obs) = 1 + / c).
    { intros c. unfold lmean, four_obs, lsum, qf, tiny, rdiag, pm. cbn. lra. }
    rewrite !Q. destruct (Rlt_dec _ _) as [|H]; [reflexivity|]. exfalso. apply H.
    replace (1 / 2000) with (1 / 1000 * / 2) by lra. rewrite (ln_mult (1 / 1000) (/ 2)), (ln_Rinv 2) by lra.
    pose proof (ln_le_minus 2 ltac:(lra)). assert (E1 : / (1 / 1000) = 1000) by (field; lra). assert (E2 : / (1 / 1000 * / 2) = 2000) by (field; lra). rewrite E1, E2. lra.
  - unfold agrees. rewrite E. destruct (mp_block_pseudo_loglik L (fm 2 2 (tiny (1 / 2000))) (map (fv 2) four_obs) 2) as [v|] eqn:EV; cbn [bind]; [|discriminate].
    intros H. injection H as H. destruct v; cbn in H; try discriminate. unfold Rltb in H. destruct (Rlt_dec r r); [lra|discriminate].
Qed.

(** ** Non-vacuity: two variables, the four rows (+-1, +-1), the identity as an estimate, the two axes as directions *)
Example C95_witness : exists L log, lawful L /\ is_log log /\ four_obs <> [] /\ pd 2 rI /\ pd 2 (pcov_of four_obs) /\ meq 2 2 rI (second_moment zero_mean four_obs) /\
  well_conditioned 2 rI 1 /\ well_conditioned 2 (damped 2 (blocks 2 2) (1 / 2) rI) 1 /\ e8 <= 1 / 1000 /\
  Forall (good_subspace 2 rI) [(1%nat, rI); (2%nat, rI)] /\ orth 2 rI /\ Forall (fun d => 0 < qf 2 rI d) [pm 1 0; pm 0 1] /\
  pd 2 (tiny (1 / 2000)) /\ ~ meq 2 2 (tiny (1 / 2000)) rI.
Proof.
  destruct lawful_satisfiable as [L HL]. destruct is_log_exists as [log Hlog]. exists L, log. split; [exact HL|]. split; [exact Hlog|]. split; [discriminate|].
  pose proof (pd_rI 2) as PI2.
  assert (W : well_conditioned 2 rI 1).
  { split; [lra|]. split; [split; [apply PI2|]|]; intros v; rewrite qf_rI; assert (0 <= rdot 2 v v) by (apply rsum_nonneg; intros; apply Rle_0_sqr); lra. }
  split; [exact PI2|]. split.
  { apply (pd_ext 2 rI); [apply four_pcov|exact PI2]. }
  split; [exact four_second|].
  split; [exact W|]. split.
  { assert (M : meq 2 2 (damped 2 (blocks 2 2) (1 / 2) rI) rI).
    { intros i j _ _. unfold damped, rI. destruct (Nat.eqb_spec i j) as [->|]; [now rewrite Nat.eqb_refl|]. destruct (Nat.eqb _ _); lra. }
    destruct W as (W1 & W2 & W3). split; [exact W1|]. split; [apply (bb_ext 2 _ rI); [now apply meq_sym|exact W2]|]. intros v. rewrite (qf_meq 2 _ _ v M). apply W3. }
  split; [unfold e8; lra|].
  assert (O2 : orth 2 rI) by (split; intros i j Hi Hj; destruct i as [|[|i]]; try lia; destruct j as [|[|j]]; try lia; unfold rmul, rT, rI; cbn; lra).
  split. { repeat constructor; cbn [fst snd].
    - intros i j Hi Hj. replace i with O by lia. now replace j with O by lia.
    - intros v (i & Hi & Hv). replace i with O in Hv by lia. unfold congr, qf, rI. cbn. pose proof (Rsqr_pos_lt _ Hv) as Q. unfold Rsqr in Q. lra.
    - now apply orth_congr_pd.
    - now apply orth_congr_pd. }
  split; [exact O2|]. split; [repeat constructor; unfold qf, rI, pm; cbn; lra|]. split; [apply tiny_pd; lra|].
  intros M. specialize (M 1%nat 1%nat ltac:(lia) ltac:(lia)). unfold tiny, rdiag, rI in M. cbn in M. lra.
Qed.

(** * FactorCovariance on finite streams *)
From Coq Require Import Reals ZArith String List Lia Lra Arith Bool.
From Verif Require Import Num Numpy PyVal LinalgModel StateModel BaseModel Estimators
  Spec ListLemmas BaseProofs RMat Fin RealSpec RunFin EwaReal RunAvg EmpFacts ShrinkReal MomentReal.
Import ListNotations.
Local Open Scope string_scope.
Local Open Scope R_scope.

Definition nrm (p : nat) (v : obs) : R := sqrt (rdot p v v).
(** one CCIPCA pass over the components *)
Fixpoint rccipca (p : nat) (lr : R) (u : obs) (vs : list obs) : list obs :=
  match vs with
  | [] => []
  | v :: rest =>
    if Rltb (nrm p v) e12 then u :: rest
    else let proj := rdot p u (fun i => v i / nrm p v) in
         (fun i => (1 - lr) * v i + lr * proj * u i)
         :: rccipca p lr (fun i => u i - proj * (v i / nrm p v)) rest
  end.
Lemma ccipca_fin p lr u vs : ccipca (N := NumX) (Fin lr) (fv p u) (map (fv p) vs) = Ok (map (fv p) (rccipca p lr u vs)).
Proof.
  revert u. induction vs as [|v vs IH]; intros u; [reflexivity|]. cbn [map ccipca rccipca].
  rewrite vnorm_fin, lit12, ltb_fin. fold (nrm p v). destruct (Rltb_spec (nrm p v) e12).
  - unfold row_assign. rewrite !fv_length, Nat.eqb_refl. reflexivity.
  - assert (nrm p v <> 0) by (pose proof e12_pos; lra).
    rewrite vdivs_fin by auto. rewrite vdot_fin. cbn [bind].
    rewrite n1_fin, sub_fin, mul_fin, !vscale_fin, vadd_fin. cbn [bind].
    unfold row_assign. rewrite !fv_length, Nat.eqb_refl. cbn [bind].
    rewrite vsub_fin. cbn [bind]. rewrite IH. reflexivity.
Qed.
Lemma rccipca_length p lr u vs : length (rccipca p lr u vs) = length vs.
Proof. revert u. induction vs; intros u; simpl; auto. destruct (Rltb _ _); simpl; auto. Qed.

Record fst_ := mkF { fn : nat; fm_ : obs; fvar : obs; fV : list obs }.
Definition fac_d (p k : nat) (r : R) (a : fst_) : dict NumX :=
  [("n_dim", VInt p); ("n_samples", VInt (fn a)); ("mean", VArr (A1 (fv p (fm_ a))));
   ("var", VArr (A1 (fv p (fvar a)))); ("V", VArr (A2 (map (fv p) (fV a)))); ("k", VInt k);
   ("r", VNum (Fin r : NumX)); ("n_burn", VInt (k + 1))].
Definition fac_step (p k : nat) (r : R) (a : fst_) (x : obs) : fst_ :=
  let d := fun i => x i - fm_ a i in
  mkF (S (fn a)) (fun i => avg r (k + 1) (fn a) (fm_ a i) (x i))
      (fun i => avg r (k + 1) (fn a) (fvar a i) (d i * d i))
      (rccipca p (if Nat.ltb (fn a) (k + 1) then 1 / INR (S (fn a)) else r) d (fV a)).
Lemma fac_update_fin p k r a x : fac_update (fac_d p k r a) (fv p x) = Ok (fac_d p k r (fac_step p k r a x)).
Proof.
  unfold fac_update, fac_d. rd. rewrite vsub_fin. cbn [bind]. rewrite vmul_fin. cbn [bind].
  unfold fac_step. cbn [fn fm_ fvar fV].
  change (Nat.leb (S (fn a)) (k + 1)) with (Nat.ltb (fn a) (k + 1)). unfold avg.
  destruct (Nat.ltb (fn a) (k + 1)).
  - rewrite nofn_fin, vdivs_fin by auto. rewrite vadd_fin. cbn [bind]. rewrite vsub_fin. cbn [bind].
    rewrite vdivs_fin by auto. rewrite vadd_fin. cbn [bind]. rewrite n1_fin, div_fin by auto.
    rewrite ccipca_fin. reflexivity.
  - rewrite n1_fin, sub_fin, !vscale_fin, !vadd_fin. cbn [bind]. rewrite ccipca_fin. reflexivity.
Qed.
(** covariance read-out *)
Definition live (p : nat) (v : obs) : bool := Rltb e12 (nrm p v).
Definition fac_sum (p : nat) (vs : list obs) (i j : nat) : R :=
  lsum (map (fun v => if live p v then v i * v j / nrm p v else 0) vs).
Lemma fac_acc_fold p vs F c : (forall i, c i = F i i) ->
  exists G d, foldM fac_acc (fm p p F, fv p c) (map (fv p) vs) = Ok (fm p p G, fv p d) /\
    (forall i j, G i j = F i j + fac_sum p vs i j) /\ (forall i, d i = G i i).
Proof.
  revert F c. induction vs as [|v vs IH]; intros F c H; cbn [map foldM].
  - exists F, c. split; [reflexivity|]. split; auto. intros. unfold fac_sum. simpl. ring.
  - unfold fac_acc at 1. cbn [fst snd]. rewrite vnorm_fin, lit12, ltb_fin. fold (nrm p v).
    assert (U : forall i j, fac_sum p (v :: vs) i j = (if live p v then v i * v j / nrm p v else 0) + fac_sum p vs i j)
      by (intros; reflexivity).
    unfold live in U. destruct (Rltb_spec e12 (nrm p v)) as [Hl|Hl].
    + assert (Nz : nrm p v <> 0) by (pose proof e12_pos; lra).
      rewrite outer_fin, mdivs_fin by auto. rewrite madd_fin. cbn [bind].
      rewrite (map_fin p _ (fun i => nrm p v * (v i / nrm p v * (v i / nrm p v))) v)
        by (intros; rewrite div_fin by auto; rewrite nsq_fin, mul_fin; reflexivity).
      rewrite vadd_fin. cbn [bind].
      destruct (IH (fun i j => F i j + v i * v j / nrm p v)
                   (fun i => c i + nrm p v * (v i / nrm p v * (v i / nrm p v)))) as (G & d & E1 & E2 & E3).
      * intros i. rewrite H. field. auto.
      * exists G, d. split; [exact E1|]. split; auto. intros i j. rewrite E2, U. ring.
    + cbn [bind]. destruct (IH F c H) as (G & d & E1 & E2 & E3).
      exists G, d. split; [exact E1|]. split; auto. intros i j. rewrite E2, U. ring.
Qed.
Definition fac_H (p : nat) (vs : list obs) (var : obs) (i j : nat) : R :=
  fac_sum p vs i j + rdiag (fun i => Rmax (var i - fac_sum p vs i i) 0) i j.
Lemma fac_cov_fin p k r a : fac_cov (fac_d p k r a) = Ok (fm p p (fac_H p (fV a) (fvar a))).
Proof.
  unfold fac_cov, fac_d. rd. rewrite mzeros_fin, vzeros_fin.
  destruct (fac_acc_fold p (fV a) (fun _ _ => 0) (fun _ => 0)) as (G & d & E1 & E2 & E3); auto.
  match goal with |- context [foldM fac_acc ?x ?y] => replace (foldM fac_acc x y) with (Ok (fm p p G, fv p d)) by (symmetry; exact E1) end.
  cbn [bind]. rewrite vsub_fin. cbn [bind].
  rewrite (map_fin p _ (fun i => Rmax (fvar a i - d i) 0) (fun i => fvar a i - d i)) by (intros; rewrite n0_fin; apply np_max_fin).
  rewrite mdiag_fin, madd_fin. f_equal. apply fm_ext. intros i j _ _. unfold fac_H, rdiag. rewrite E2, E3, E2, !Rplus_0_l. reflexivity.
Qed.
Lemma sym_fac p n vs var : sym n (fac_H p vs var).
Proof.
  intros i j Hi Hj. unfold fac_H. rewrite (sym_rdiag n _ i j Hi Hj). f_equal. apply lsum_map_ext. intros v _.
  destruct (live p v); auto. f_equal. ring.
Qed.
Lemma psd_fac_sum p vs : psd p (fac_sum p vs).
Proof.
  apply (psd_lsum p vs (fun v i j => if live p v then v i * v j / nrm p v else 0)). intros v _.
  destruct (live p v) eqn:E; [|apply psd_zero].
  apply (psd_ext p (fun i j => / nrm p v * (v i * v j))); [intros i j _ _; unfold Rdiv; ring|].
  apply psd_scal; [|apply psd_outer]. left. apply Rinv_0_lt_compat.
  unfold live in E. destruct (Rltb_spec e12 (nrm p v)); [pose proof e12_pos; lra|discriminate].
Qed.
Lemma psd_fac p vs var : psd p (fac_H p vs var).
Proof.
  apply psd_plus; [apply psd_fac_sum|]. apply psd_diag. intros. apply Rmax_r.
Qed.
Lemma fac_diag p vs var i : fac_H p vs var i i = Rmax (var i) (fac_sum p vs i i).
Proof. unfold fac_H, rdiag. rewrite Nat.eqb_refl. unfold Rmax. destruct (Rle_dec _ 0), (Rle_dec _ _); lra. Qed.

Definition f_init (k : nat) : fst_ := mkF 0 (fun _ => 0) (fun _ => 0) (repeat (fun _ => 0) k).
(** components after a stream *)
Definition fac_comps (p k : nat) (r : R) (xs : list obs) : list obs := fV (fold_left (fac_step p k r) xs (f_init k)).
Lemma fac_fold p k r xs : let a := fold_left (fac_step p k r) xs (f_init k) in
  fn a = length xs /\ (forall i, fm_ a i = ewa_mean r (k + 1) xs i) /\
  (forall i, fvar a i = rw_avg r (k + 1) (fun pre x => dev r (k + 1) pre x i * dev r (k + 1) pre x i) xs) /\
  length (fV a) = k.
Proof.
  cbv zeta. induction xs as [|x xs IH] using rev_ind.
  - simpl. split; auto. split; [intros; now rewrite ewa_mean_nil|]. split; [intros; now rewrite rw_avg_nil|apply repeat_length].
  - destruct IH as (I1 & I2 & I3 & I4). rewrite fold_left_app. cbn [fold_left].
    set (a := fold_left (fac_step p k r) xs (f_init k)) in *. unfold fac_step. cbn [fn fm_ fvar fV].
    rewrite app_length, I1. cbn [length]. split; [lia|]. split; [|split].
    + intros i. now rewrite ewa_mean_step, I2.
    + intros i. rewrite rw_avg_step, I3, I2. reflexivity.
    + now rewrite rccipca_length.
Qed.
Definition FACP (K : nat) (r : R) (diff : bool) : FacP (N := NumX) := mkFacP (Z.of_nat K) (Fin r : NumX) diff.
Lemma fac_pair K r : diff_pair Factor (FACP K r).
Proof. split; [reflexivity|]. repeat split; intros; try reflexivity; try discriminate. Qed.
Lemma mzeros_rows k p : @mzeros NumX k p = map (fv p) (repeat (fun _ => 0) k).
Proof.
  assert (M : forall (z : obs) k, map (fv p) (repeat z k) = repeat (fv p z) k) by (intros z q; induction q; simpl; congruence).
  unfold mzeros, tab2. rewrite M. unfold tab at 1.
  assert (G : forall a, map (fun _ : nat => tab p (fun _ => @n0 NumX)) (seq a k) = repeat (fv p (fun _ => 0)) k).
  { induction k; intros a; simpl; auto. now rewrite IHk. }
  apply G.
Qed.
Lemma Factor_run p K r diff rows xs : let k := Nat.min K p in observes p diff rows xs -> xs <> [] ->
  exists o, partial_fit (new (C := Factor) (FACP K r diff)) (In2 rows) = (o, Ok tt) /\
    n_samples_ o = Ok (length xs) /\
    location_ o = Ok (fv p (ewa_mean r (k + 1) xs)) /\
    covariance_ o = Ok (fm p p (fac_H p (fac_comps p k r xs)
       (fun i => rw_avg r (k + 1) (fun pre x => dev r (k + 1) pre x i * dev r (k + 1) pre x i) xs))) /\
    correlation_ o = (c <- covariance_ o ;; cov_to_corrcoef c).
Proof.
  intros k Ho Hx. destruct (length_S xs Hx) as (n & Hn).
  pose proof (fac_fold p k r xs) as E. cbv zeta in E. destruct E as (E1 & E2 & E3 & E4).
  destruct (run_reads (C := Factor) (FACP K r) (fac_pair K r) (fac_d p k r) (fac_step p k r)
             (fun _ => True) p (f_init k)) with (xs := xs) (diff := diff) (rows := rows) (n := n)
    as (o & R1 & R2 & R3 & R4 & R5 & R6 & _); auto.
  - cbn [c_init Factor dict_class]. unfold fac_init. cbn [FACP fac_k fac_r].
    rewrite <- Nat2Z.inj_min. fold k. destruct (Z.ltb_spec (Z.of_nat k) 0); [lia|]. rewrite Nat2Z.id.
    rewrite mzeros_rows. reflexivity.
  - intros st x _. split; auto. apply fac_update_fin.
  - cbn. unfold dict_nsamples, fac_d. rd. now rewrite E1, Hn.
  - exists o. split; [exact R1|]. rewrite Hn. split; [exact R2|]. split; [|split; [|exact R5]].
    + rewrite R3. cbn [c_mean Factor dict_class]. unfold dict_mean, fac_d. rd. f_equal. now apply fv_ext.
    + rewrite R4. cbn [c_cov Factor dict_class]. rewrite fac_cov_fin. cbn [bind].
      rewrite to_symmetric_sym_fin by apply sym_fac. f_equal. apply fm_ext. intros i j _ _. unfold fac_H.
      f_equal. unfold rdiag. destruct (Nat.eqb i j); auto. f_equal. unfold Rminus. f_equal. apply E3.
Qed.

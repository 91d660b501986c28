(** * Tyler on finite streams, lawful LAPACK (proof infrastructure) *)
From Coq Require Import Reals ZArith String List Lia Lra Arith Bool.
From Verif Require Import Num Numpy PyVal LinalgModel StateModel BaseModel Estimators
  Spec ListLemmas BaseProofs RMat LinSpec Fin RealSpec RunFin EwaReal RunAvg EmpFacts Spectral MatAlg Contracts LinalgReal RobustReal.
Import ListNotations.
Local Open Scope string_scope.
Local Open Scope R_scope.

Section L.
  Context (L : LinAlg NumX) (HL : lawful L).
  (** [aC] holds the shape matrix *)
  Definition tyl_d (p : nat) (r : R) (nb : nat) (a : ast) : dict NumX :=
    [("n_dim", VInt p); ("n_samples", VInt (an a)); ("mean", VArr (A1 (fv p (am a))));
     ("C", VArr (A2 (fm p p (aC a)))); ("r", VNum (Fin r : NumX)); ("n_burn", VInt nb)].
  Definition tyl_lr (r : R) (nb : nat) (n : nat) : R := if Nat.leb (S n) nb then 1 / INR (S n) else r.
  Definition tyl_q (p : nat) (a : ast) (x : obs) : R := Rmax (maha2 L p a x) e12.
  Definition tyl_C1 (p : nat) (lr : R) (a : ast) (x : obs) : rmat :=
    fun i j => (1 - lr) * aC a i j + lr * INR p * (dv a x i * dv a x j) / tyl_q p a x.
  Definition tyl_step (p : nat) (r : R) (nb : nat) (a : ast) (x : obs) : ast :=
    let lr := tyl_lr r nb (an a) in
    mkA (S (an a)) (fun i => am a i + lr * dv a x i)
        (fun i j => INR p * tyl_C1 p lr a x i j / rtrace p (tyl_C1 p lr a x)).
  Definition t_init : ast := mkA 0 (fun _ => 0) rI.
  Lemma tyl_q_pos p a x : 0 < tyl_q p a x.
  Proof. unfold tyl_q. pose proof (Rmax_r (maha2 L p a x) e12). pose proof e12_pos. lra. Qed.
  Lemma tyl_update_fin p r nb a x : (1 <= p)%nat -> sym p (aC a) ->
    rtrace p (tyl_C1 p (tyl_lr r nb (an a)) a x) <> 0 ->
    tyl_update L (tyl_d p r nb a) (fv p x) = Ok (tyl_d p r nb (tyl_step p r nb a x)).
  Proof.
    intros Hp HS Ht. pose proof (tyl_q_pos p a x) as HQ.
    unfold tyl_update, tyl_d. rd. rewrite vsub_fin. cbn [bind].
    set (lr := tyl_lr r nb (an a)) in *.
    match goal with |- (bind ?X _) = _ => replace X with (Ok ((Fin lr : NumX), fv p (fun i => am a i + lr * dv a x i))) end.
    2:{ unfold lr, tyl_lr. destruct (Nat.leb (S (an a)) nb).
        - rewrite nofn_fin, vdivs_fin by auto. rewrite vadd_fin. cbn [bind]. rewrite n1_fin, div_fin by auto.
          f_equal. f_equal. apply fv_ext. intros i _. unfold dv. field. auto.
        - rewrite n1_fin, sub_fin, !vscale_fin, vadd_fin. cbn [bind]. f_equal. f_equal. apply fv_ext. intros i _. unfold dv. ring. }
    cbn [bind]. destruct (tinv_ok L HL p (aC a) Hp HS) as [-> _]. cbn [bind].
    pose proof (maha_fin p (tinv L p (aC a)) (dv a x) Hp) as M.
    change (fun i => x i - am a i) with (dv a x). destruct (vecmat (fv p (dv a x)) (fm p p (tinv L p (aC a)))) as [dp|]; [|discriminate M].
    cbn [bind] in *. rewrite M. cbn [bind]. fold (maha2 L p a x). rewrite lit12, py_max_fin. fold (tyl_q p a x).
    rewrite nofn_fin, n1_fin, sub_fin, mul_fin, outer_fin, !mscale_fin, mdivs_fin by lra. rewrite madd_fin. cbn [bind].
    fold (tyl_C1 p lr a x).
    rewrite mtrace_fin, mscale_fin, mdivs_fin by exact Ht. unfold tyl_step. fold lr. cbn [an am aC]. reflexivity.
  Qed.
  Lemma tyl_init_fin p r diff : r <> 0 ->
    c_init (Tyler L) (mkEwaP (N := NumX) (Fin r) diff) p = Ok (tyl_d p r (burn_len r) t_init).
  Proof. intros Hr. cbn [c_init Tyler dict_class]. unfold tyl_init. cbn [ewa_r]. rewrite burn_fin by auto. cbn [bind]. now rewrite meye_fin. Qed.

  (** the shape is positive semidefinite with trace p *)
  Definition tshape (p : nat) (C : rmat) : Prop := psd p C /\ rtrace p C = INR p.
  Lemma rtrace_I n : rtrace n rI = INR n.
  Proof. unfold rtrace, rI. rewrite (rsum_ext n _ (fun _ => 1)) by (intros; now rewrite Nat.eqb_refl). rewrite rsum_const. ring. Qed.
  Lemma tshape_init p : tshape p (aC t_init).
  Proof. split; [apply psd_I|apply rtrace_I]. Qed.
  Lemma C1_trace p lr a x : tshape p (aC a) ->
    rtrace p (tyl_C1 p lr a x) = (1 - lr) * INR p + lr * INR p * rdot p (dv a x) (dv a x) / tyl_q p a x.
  Proof.
    intros [_ Ht]. unfold rtrace in *. unfold tyl_C1. rewrite rsum_plus, rsum_scal, Ht. f_equal. unfold rdot, Rdiv.
    rewrite <- (rsum_scal p (lr * INR p)), <- rsum_scal_r. apply rsum_ext. intros. ring.
  Qed.
  Lemma C1_psd p lr a x : 0 <= lr <= 1 -> psd p (aC a) -> psd p (tyl_C1 p lr a x).
  Proof.
    intros Hl Ha. pose proof (tyl_q_pos p a x).
    apply (psd_ext p (fun i j => (1 - lr) * aC a i j + lr * INR p / tyl_q p a x * (dv a x i * dv a x j))).
    - intros i j _ _. unfold tyl_C1, Rdiv. ring.
    - apply psd_plus; apply psd_scal; auto using psd_outer; [lra|]. apply Rmult_le_pos; [|left; now apply Rinv_0_lt_compat].
      apply Rmult_le_pos; [lra|apply pos_INR].
  Qed.
  Lemma tshape_step p r nb a x : (1 <= p)%nat -> 0 <= tyl_lr r nb (an a) <= 1 -> tshape p (aC a) ->
    rtrace p (tyl_C1 p (tyl_lr r nb (an a)) a x) <> 0 -> tshape p (aC (tyl_step p r nb a x)).
  Proof.
    intros Hp Hl Ha Ht. unfold tyl_step. cbn [aC]. set (C1 := tyl_C1 p (tyl_lr r nb (an a)) a x) in *.
    assert (P1 : psd p C1) by (apply C1_psd; auto; apply Ha).
    assert (0 <= rtrace p C1) by (apply rsum_nonneg; intros; now apply (psd_diag_nonneg p)).
    split.
    - apply (psd_ext p (fun i j => INR p / rtrace p C1 * C1 i j)); [intros i j _ _; unfold Rdiv; ring|].
      apply psd_scal; auto. apply Rmult_le_pos; [apply pos_INR|]. left. apply Rinv_0_lt_compat. lra.
    - unfold rtrace at 1. rewrite rsum_div, rsum_scal. fold (rtrace p C1). field. auto.
  Qed.
  Lemma tyl_lr_range r nb n : 0 < r <= 1 -> 0 < tyl_lr r nb n <= 1.
  Proof. intros Hr. unfold tyl_lr. destruct (Nat.leb _ _); auto. pose proof (inv_S_range n). unfold Rdiv. lra. Qed.
  (** after the first observation the mixing rate is below one *)
  Lemma tyl_lr_lt1 r nb n : 0 < r < 1 -> (1 <= n)%nat -> 0 < tyl_lr r nb n < 1.
  Proof.
    intros Hr Hn. unfold tyl_lr. destruct (Nat.leb _ _); [|auto].
    assert (1 < INR (S n)). { rewrite S_INR. pose proof (le_INR 1 n Hn). simpl in *. lra. }
    unfold Rdiv. rewrite Rmult_1_l. split; [apply Rinv_0_lt_compat; lra|]. rewrite <- Rinv_1. apply Rinv_lt_contravar; lra.
  Qed.
  Lemma C1_trace_pos p lr a x : (1 <= p)%nat -> 0 <= lr <= 1 -> tshape p (aC a) ->
    lr < 1 \/ (0 < lr /\ exists i, (i < p)%nat /\ dv a x i <> 0) -> 0 < rtrace p (tyl_C1 p lr a x).
  Proof.
    intros Hp Hl Ha Hd. rewrite C1_trace by auto. pose proof (tyl_q_pos p a x) as HQ.
    assert (N : 0 < INR p) by (apply lt_0_INR; lia).
    assert (D : 0 <= rdot p (dv a x) (dv a x)) by apply rdot_nonneg.
    assert (I : 0 < / tyl_q p a x) by now apply Rinv_0_lt_compat.
    destruct Hd as [Hd|[H1 Hd]].
    - assert (0 < (1 - lr) * INR p) by (apply Rmult_lt_0_compat; lra).
      assert (0 <= lr * INR p * rdot p (dv a x) (dv a x) / tyl_q p a x); [|lra].
      unfold Rdiv. repeat apply Rmult_le_pos; lra.
    - assert (0 <= (1 - lr) * INR p) by (apply Rmult_le_pos; lra).
      assert (0 < lr * INR p * rdot p (dv a x) (dv a x) / tyl_q p a x); [|lra].
      apply rdot_pos in Hd. unfold Rdiv. repeat apply Rmult_lt_0_compat; lra.
  Qed.

  Lemma tyl_pair r : diff_pair (Tyler L) (mkEwaP (N := NumX) (Fin r)).
  Proof. split; [reflexivity|]. repeat split; intros; try reflexivity; try discriminate. Qed.
  Definition tyl_st (p : nat) (r : R) (xs : list obs) : ast := fold_left (tyl_step p r (burn_len r)) xs t_init.
  Lemma an_tyl p r nb xs a : an (fold_left (tyl_step p r nb) xs a) = (length xs + an a)%nat.
  Proof. revert a. induction xs as [|x xs IH]; intros a; cbn [fold_left length]; [reflexivity|]. rewrite IH. cbn [tyl_step an]. lia. Qed.
  (** mean: the recency-weighted mean *)
  Lemma am_tyl p r xs i : am (tyl_st p r xs) i = ewa_mean r (burn_len r) xs i.
  Proof.
    unfold tyl_st. induction xs as [|x xs IH] using rev_ind.
    - cbn. unfold ewa_mean, burn, after. now rewrite firstn_nil, skipn_nil, ewm_nil, mean_nil.
    - rewrite fold_left_app. cbn [fold_left]. rewrite ewa_step_eq. cbn [tyl_step am]. unfold dv, tyl_lr.
      rewrite IH, an_tyl. cbn [an t_init]. rewrite Nat.add_0_r.
      change (Nat.leb (S (length xs)) (burn_len r)) with (Nat.ltb (length xs) (burn_len r)).
      destruct (Nat.ltb (length xs) (burn_len r)); [field; auto|ring].
  Qed.
  Lemma good_later p r xs a : (1 <= p)%nat -> 0 < r < 1 -> (1 <= an a)%nat -> tshape p (aC a) ->
    good (C := Tyler L) (mkEwaP (N := NumX) (Fin r)) (tyl_d p r (burn_len r)) (tyl_step p r (burn_len r)) p a xs /\
    tshape p (aC (fold_left (tyl_step p r (burn_len r)) xs a)).
  Proof.
    intros Hp Hr. revert a. induction xs as [|x xs IH]; intros a Hn Ha; cbn [good fold_left]; auto.
    pose proof (tyl_lr_lt1 r (burn_len r) (an a) Hr Hn) as Hl.
    assert (Ht : 0 < rtrace p (tyl_C1 p (tyl_lr r (burn_len r) (an a)) a x)) by (apply C1_trace_pos; auto; lra).
    destruct (IH (tyl_step p r (burn_len r) a x)) as [G S].
    - cbn. lia.
    - apply tshape_step; auto; lra.
    - split; [|exact S]. split; [|exact G]. cbn [c_update Tyler dict_class]. apply tyl_update_fin; auto; [apply Ha|lra].
  Qed.
  Lemma good_tyl p r x xs : (1 <= p)%nat -> 0 < r < 1 -> (exists i, (i < p)%nat /\ x i <> 0) ->
    good (C := Tyler L) (mkEwaP (N := NumX) (Fin r)) (tyl_d p r (burn_len r)) (tyl_step p r (burn_len r)) p t_init (x :: xs) /\
    tshape p (aC (tyl_st p r (x :: xs))).
  Proof.
    intros Hp Hr (i & Hi & Hx). unfold tyl_st. cbn [good fold_left].
    assert (E : tyl_lr r (burn_len r) (an t_init) = 1).
    { unfold tyl_lr, t_init. cbn [an]. pose proof (burn_len_bounds r). destruct (Nat.leb_spec 1 (burn_len r)); [|lia]. simpl. lra. }
    assert (Ht : 0 < rtrace p (tyl_C1 p (tyl_lr r (burn_len r) (an t_init)) t_init x)).
    { rewrite E. apply C1_trace_pos; auto; [lra|apply tshape_init|]. right. split; [lra|]. exists i. split; auto.
      unfold dv, t_init. cbn [am]. lra. }
    assert (T1 : tshape p (aC (tyl_step p r (burn_len r) t_init x))).
    { apply tshape_step; [auto|rewrite E; lra|apply tshape_init|lra]. }
    destruct (good_later p r xs (tyl_step p r (burn_len r) t_init x)) as [G S]; auto.
    split; [|exact S]. split; [|exact G]. cbn [c_update Tyler dict_class]. apply tyl_update_fin; auto; [apply tshape_init|lra].
  Qed.
  Definition corr_of (C : rmat) : rmat := fun i j => C i j / (sqrt (C i i * C j j) + e12).
  Lemma corr_of_sym p C : sym p C -> sym p (corr_of C).
  Proof. intros H i j Hi Hj. unfold corr_of. now rewrite (H i j) by auto; rewrite (Rmult_comm (C i i)). Qed.
  Lemma Tyler_run p r diff rows x xs : (1 <= p)%nat -> 0 < r < 1 -> observes p diff rows (x :: xs) ->
    (exists i, (i < p)%nat /\ x i <> 0) ->
    let a := tyl_st p r (x :: xs) in
    exists o, partial_fit (new (C := Tyler L) (mkEwaP (N := NumX) (Fin r) diff)) (In2 rows) = (o, Ok tt) /\
      i_state o = Some (tyl_d p r (burn_len r) a) /\
      n_samples_ o = Ok (S (length xs)) /\
      location_ o = Ok (fv p (am a)) /\ covariance_ o = Ok (fm p p (corr_of (aC a))) /\
      correlation_ o = cov_to_corrcoef (fm p p (corr_of (aC a))).
  Proof.
    intros Hp Hr Ho Hx a. destruct (good_tyl p r x xs Hp Hr Hx) as [G T]. fold a in T.
    destruct (run_reads_g (C := Tyler L) (mkEwaP (N := NumX) (Fin r)) (tyl_pair r) (tyl_d p r (burn_len r)) (tyl_step p r (burn_len r)) p t_init)
      with (xs := x :: xs) (diff := diff) (rows := rows) (n := length xs) as (o & R1 & R2 & R3 & R4 & R5 & R6 & _); auto.
    - apply tyl_init_fin. lra.
    - discriminate.
    - cbn [c_nsamples Tyler dict_class]. unfold dict_nsamples, tyl_d. rd. f_equal. rewrite an_tyl. cbn. lia.
    - change (fold_left (tyl_step p r (burn_len r)) (x :: xs) t_init) with a in *.
      exists o. split; [exact R1|]. split; [exact R2|]. split; [exact R3|].
      assert (Cv : covariance_ o = Ok (fm p p (corr_of (aC a)))).
      { rewrite R5. cbn [c_cov Tyler dict_class]. unfold tyl_cov, tyl_d. rd.
        rewrite cov_to_corrcoef_fin by (intros i Hi; apply (psd_diag_nonneg p); auto; apply T). cbn [bind].
        apply to_symmetric_sym_fin. apply corr_of_sym. apply T. }
      split; [rewrite R4; reflexivity|]. split; [exact Cv|]. now rewrite R6, Cv.
  Qed.
End L.

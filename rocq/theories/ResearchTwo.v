(** * Two blocks: completing the square, canonical correlation, definiteness of the closed form (proof infrastructure) *)
From Coq Require Import Reals List Lia Lra Arith Bool.
From Verif Require Import ListLemmas RMat LinSpec RealSpec Spectral MatAlg Det GaussSpec GaussReal AssessSpec BlockDet AssessBlock ResearchSpec ResearchReal.
Import ListNotations.
Local Open Scope R_scope.

Definition back (m : nat) (B : rmat) (v : nat -> R) : nat -> R := fun k => rsum m (fun i => v i * B i k).

Lemma second_pd T s m : pd (s + m) T -> pd m (second_block s T).
Proof. intros H. exact (pd_block s m T H). Qed.

Section Two.
  Context (T : rmat) (s m : nat) (B S : rmat) (HT : sym (s + m) T) (HL : law T 1 s m B S).

  Lemma second_split : meq m m (second_block s T) (fun i l => S i l + rsum s (fun k => rsum s (fun j => B i k * T k j * B l j))).
  Proof. intros i l Hi Hl. rewrite <- (law_cross T 1 s m B S i l HT HL Hi Hl), (proj2 HL i l Hi Hl). unfold second_block. ring. Qed.
  Lemma explained v : qf m (second_block s T) v = qf m S v + qf s T (back m B v).
  Proof. rewrite (qf_meq m _ _ v second_split). rewrite (qf_plus m S). f_equal. apply (qf_congr m s B T v). Qed.
  Lemma T_WK k l : (k < s)%nat -> (l < m)%nat -> T k (s + l)%nat = rsum s (fun j => T k j * B l j).
  Proof.
    intros Hk Hl. rewrite (HT k (s + l)%nat) by lia. replace (T (s + l)%nat k) with (1 * T (s + l)%nat k) by ring. rewrite <- (proj1 HL l k Hl Hk).
    unfold rmul. apply rsum_ext. intros j Hj. rewrite (HT k j) by lia. ring.
  Qed.
  Lemma cross_bil u v : cross_cov s m T u v = bil s T u (back m B v).
  Proof.
    unfold cross_cov, bil, rdot, rapp, back. apply rsum_ext. intros i Hi.
    rewrite (rsum_ext m _ (fun l => rsum s (fun j => u i * (T i j * (v l * B l j))))).
    2:{ intros l Hl. rewrite T_WK by auto. replace (u i * rsum s (fun j => T i j * B l j) * v l) with (u i * v l * rsum s (fun j => T i j * B l j)) by ring.
        rewrite <- rsum_scal. apply rsum_ext. intros; ring. }
    rewrite rsum_swap, <- rsum_scal. apply rsum_ext. intros j Hj. rewrite rsum_scal. f_equal. now rewrite rsum_scal.
  Qed.
  Lemma qf_split x : qf (s + m) T x = qf s T x + 2 * cross_cov s m T x (fun i => x (s + i)%nat) + qf m (second_block s T) (fun i => x (s + i)%nat).
  Proof.
    unfold qf at 1. rewrite rsum_split.
    rewrite (rsum_ext s _ (fun i => rsum s (fun j => x i * T i j * x j) + rsum m (fun j => x i * T i (s + j)%nat * x (s + j)%nat))) by (intros; apply rsum_split).
    rewrite (rsum_ext m _ (fun i => rsum s (fun j => x (s + i)%nat * T (s + i)%nat j * x j) + rsum m (fun j => x (s + i)%nat * T (s + i)%nat (s + j)%nat * x (s + j)%nat))) by (intros; apply rsum_split).
    rewrite !rsum_plus. fold (qf s T x). fold (cross_cov s m T x (fun i => x (s + i)%nat)).
    replace (rsum m (fun i => rsum s (fun j => x (s + i)%nat * T (s + i)%nat j * x j))) with (cross_cov s m T x (fun i => x (s + i)%nat)).
    - unfold second_block, qf. ring.
    - unfold cross_cov. rewrite rsum_swap. apply rsum_ext. intros j Hj. apply rsum_ext. intros i Hi. rewrite (HT i (s + j)%nat) by lia. ring.
  Qed.
  Lemma square x : qf (s + m) T x = qf s T (fun k => x k + back m B (fun i => x (s + i)%nat) k) + qf m S (fun i => x (s + i)%nat).
  Proof.
    rewrite qf_split, explained, cross_bil. set (w := back m B (fun i => x (s + i)%nat)).
    assert (E : qf s T (fun k => x k + w k) = qf s T x + 2 * bil s T x w + qf s T w).
    { assert (SS : sym s T) by (intros i j Hi Hj; apply HT; lia).
      transitivity (qf s T (fun k => x k + 1 * w k)); [apply qf_ext; [apply meq_refl|intros; ring]|]. rewrite qf_add by auto.
      change (rdot s w (rapp s T x)) with (bil s T w x). rewrite (bil_sym s T w x) by auto. ring. }
    rewrite E. ring.
  Qed.
  Lemma pd_from_schur : pd s T -> pd m S -> pd (s + m) T.
  Proof.
    intros H1 H2. split; [exact HT|]. intros x Hx. rewrite square. destruct (nz_dec m (fun i => x (s + i)%nat)) as [N|N].
    - pose proof (proj2 H2 _ N). pose proof (proj2 (pd_psd s T H1) (fun k => x k + back m B (fun i => x (s + i)%nat) k)). lra.
    - assert (Z : qf m S (fun i => x (s + i)%nat) = 0) by (apply qf_zero; exact N). rewrite Z, Rplus_0_r.
      rewrite (qf_ext s T T _ x); [|apply meq_refl|].
      + apply H1. destruct Hx as (i & Hi & Hx). destruct (Nat.lt_ge_cases i s); [now exists i|]. exfalso. apply Hx. replace i with (s + (i - s))%nat by lia. apply N. lia.
      + intros i Hi. unfold back. rewrite rsum_zero; [ring|]. intros j Hj. cbv beta in N. rewrite N by auto. ring.
  Qed.
End Two.
Section TwoPd.
  Context (T : rmat) (s m : nat) (B S : rmat) (HT : sym (s + m) T) (HL : law T 1 s m B S) (HP : pd (s + m) T).
  Let explained := explained T s m B S HT HL.
  Let cross_bil := cross_bil T s m B S HT HL.
  Let HP1 : pd s T. Proof. eapply pd_lead; eauto. Qed.
  Let HPS : pd m S. Proof. exact (schur_pd T s m B S HT HL HP). Qed.

  (** ** canonical correlation *)
  Lemma canon_range r : top_corr2 T s m r -> 0 <= r < 1.
  Proof.
    intros [_ (u & v & Hu & Hv & E)]. pose proof (proj2 HP1 u Hu) as Q1. pose proof (proj2 (second_pd T s m HP) v Hv) as Q2. pose proof (proj2 HPS v Hv) as Q3.
    pose proof (explained v) as X. set (c := cross_cov s m T u v) in *. assert (P : 0 < qf s T u * qf m (second_block s T) v) by now apply Rmult_lt_0_compat.
    split.
    - assert (0 <= c * c) by apply Rle_0_sqr. destruct (Rle_dec 0 r); auto. exfalso. nra.
    - pose proof (bil_cauchy s T u (back m B v) (pd_psd _ _ HP1)) as C. rewrite <- cross_bil in C. fold c in C.
      assert (qf s T u * qf s T (back m B v) < qf s T u * qf m (second_block s T) v) by (apply Rmult_lt_compat_l; lra). nra.
  Qed.
  Lemma canon_bound r v : top_corr2 T s m r -> qf s T (back m B v) <= r * qf m (second_block s T) v.
  Proof.
    intros HR. pose proof (canon_range r HR) as RR. destruct HR as [HB _]. specialize (HB (back m B v) v). rewrite cross_bil, bil_qf in HB.
    set (e := qf s T (back m B v)) in *. set (q := qf m (second_block s T) v) in *.
    assert (Hq : 0 <= q) by (apply (pd_psd _ _ (second_pd T s m HP))). assert (He : 0 <= e) by (apply (pd_psd _ _ HP1)).
    destruct (Req_dec e 0) as [Z|Z]; [rewrite Z; nra|]. apply Rmult_le_reg_l with e; [lra|]. lra.
  Qed.
  Lemma canon_attained r : top_corr2 T s m r -> exists v, not_zero m v /\ qf s T (back m B v) = r * qf m (second_block s T) v.
  Proof.
    intros HR. pose proof (canon_bound r) as CB. destruct HR as [HB (u & v & Hu & Hv & E)]. exists v. split; [exact Hv|]. apply Rle_antisym; [now apply CB; split; [|exists u, v]|].
    pose proof (proj2 HP1 u Hu) as Q1. pose proof (bil_cauchy s T u (back m B v) (pd_psd _ _ HP1)) as C. rewrite <- cross_bil, E in C.
    apply Rmult_le_reg_l with (qf s T u); [lra|]. lra.
  Qed.
  Lemma canon_intro r : (1 <= s)%nat -> 0 <= r -> (forall v, qf s T (back m B v) <= r * qf m (second_block s T) v) ->
    (exists v, not_zero m v /\ qf s T (back m B v) = r * qf m (second_block s T) v) -> top_corr2 T s m r.
  Proof.
    intros Hs Hr H1 (v & Hv & E). assert (C : forall u v, cross_cov s m T u v * cross_cov s m T u v <= qf s T u * qf s T (back m B v)).
    { intros u w. rewrite cross_bil. apply bil_cauchy. now apply pd_psd. }
    split.
    - intros u w. eapply Rle_trans; [apply C|]. replace (r * (qf s T u * qf m (second_block s T) w)) with (qf s T u * (r * qf m (second_block s T) w)) by ring.
      apply Rmult_le_compat_l; [apply (pd_psd _ _ HP1)|apply H1].
    - destruct (nz_dec s (back m B v)) as [N|N].
      + exists (back m B v), v. split; [exact N|]. split; [exact Hv|]. rewrite cross_bil, bil_qf. rewrite E at 1. ring.
      + assert (Z : qf s T (back m B v) = 0) by now apply qf_zero.
        exists (fun k => if Nat.eqb k 0 then 1 else 0), v. split; [exists 0%nat; split; [lia|cbn; lra]|]. split; [exact Hv|].
        specialize (C (fun k => if Nat.eqb k 0 then 1 else 0) v). rewrite Z, Rmult_0_r in C. rewrite Z in E.
        assert (0 <= cross_cov s m T (fun k => if Nat.eqb k 0 then 1 else 0) v * cross_cov s m T (fun k => if Nat.eqb k 0 then 1 else 0) v) by apply Rle_0_sqr.
        replace (r * (qf s T (fun k => if Nat.eqb k 0 then 1 else 0) * qf m (second_block s T) v)) with (qf s T (fun k => if Nat.eqb k 0 then 1 else 0) * (r * qf m (second_block s T) v)) by ring.
        rewrite <- E. lra.
  Qed.
  Lemma min_index n (f : nat -> R) : (1 <= n)%nat -> exists k, (k < n)%nat /\ forall i, (i < n)%nat -> f k <= f i.
  Proof.
    intros Hn. induction n as [|n IH]; [lia|]. destruct (Nat.eq_dec n 0) as [->|]; [exists 0%nat; split; [lia|]; intros i Hi; replace i with 0%nat by lia; lra|].
    destruct IH as (k & Hk & H); [lia|]. destruct (Rle_dec (f k) (f n)).
    - exists k. split; [lia|]. intros i Hi. destruct (Nat.eq_dec i n) as [->|]; auto. apply H. lia.
    - exists n. split; [lia|]. intros i Hi. destruct (Nat.eq_dec i n) as [->|]; [lra|]. assert (f k <= f i) by (apply H; lia). lra.
  Qed.
  Lemma canon_exists : (1 <= s)%nat -> (1 <= m)%nat -> exists r, top_corr2 T s m r.
  Proof.
    intros Hs Hm. destruct (pd_sqrt m _ (second_pd T s m HP)) as (R & Ri & SR & SRi & HR & HRi).
    set (M := rmul m (rT Ri) (rmul m S Ri)).
    assert (SM : sym m M) by (apply sym_congr; apply HPS).
    destruct (spectral m M SM) as (U & lam & He). destruct (min_index m lam Hm) as (k & Hk & Hmin).
    assert (BB : bounded_below m (lam k) M) by (apply (bb_ext m _ (spec m U lam)); [apply meq_sym, eig_spec, He|apply spec_bb; [apply He|exact Hmin]]).
    assert (QM : forall y, qf m M y = qf m S (rapp m Ri y)) by (intros; apply qf_congr_sq).
    assert (RR : forall v, veq m (rapp m Ri (rapp m R v)) v).
    { intros v i Hi. rewrite <- rapp_mul. rewrite (rapp_ext m _ _ v v (proj2 HRi) (fun _ _ => eq_refl) i Hi). now apply rapp_I. }
    assert (RR' : forall v, veq m (rapp m R (rapp m Ri v)) v).
    { intros v i Hi. rewrite <- rapp_mul. rewrite (rapp_ext m _ _ v v (proj1 HRi) (fun _ _ => eq_refl) i Hi). now apply rapp_I. }
    assert (Q : forall v, qf m (second_block s T) v = rdot m (rapp m R v) (rapp m R v)).
    { intros v. rewrite <- (qf_meq m _ _ v HR), qf_app. rewrite (rdot_ext m v v (rapp m (rmul m R R) v) (rapp m R (rapp m R v))); [|intros i _; reflexivity|intros i _; apply rapp_mul].
      rewrite rdot_app_T. apply rdot_ext; [|intros i _; reflexivity]. apply rapp_ext; [intros i j Hi Hj; unfold rT; now apply SR|intros i _; reflexivity]. }
    assert (LB : forall v, lam k * qf m (second_block s T) v <= qf m S v).
    { intros v. rewrite Q. eapply Rle_trans; [apply BB|]. rewrite QM. right. apply qf_ext; [apply meq_refl|apply RR]. }
    set (v := rapp m Ri (fun i => U i k)). destruct (spec_col m U lam k (proj1 He) Hk) as [C1 C2].
    assert (E1 : qf m S v = lam k). { unfold v. rewrite <- QM, <- C1. apply qf_meq. now apply eig_spec. }
    assert (E2 : qf m (second_block s T) v = 1).
    { rewrite Q, <- C2. unfold v. apply rdot_ext; apply RR'. }
    assert (NZ : not_zero m v). { destruct (nz_dec m v) as [N|N]; [exact N|]. rewrite qf_zero in E2 by exact N. lra. }
    exists (1 - lam k). apply canon_intro; auto.
    - pose proof (explained v) as X. assert (0 <= qf s T (back m B v)) by (apply (pd_psd _ _ HP1)). lra.
    - intros w. pose proof (explained w). specialize (LB w). lra.
    - exists v. split; [exact NZ|]. pose proof (explained v) as X. rewrite E2. lra.
  Qed.
  (** a maximising combination solves the generalised eigenproblem: T_21 T_11^-1 T_12 v = r T_22 v *)
  Lemma canon_vector r v : top_corr2 T s m r -> qf s T (back m B v) = r * qf m (second_block s T) v ->
    forall i, (i < m)%nat -> rsum s (fun k => T (s + i)%nat k * back m B v k) = r * rapp m (second_block s T) v i.
  Proof.
    intros HR E i Hi.
    set (A := fun i l => r * second_block s T i l + -1 * rsum s (fun k => rsum s (fun j => B i k * T k j * B l j))).
    assert (QA : forall w, qf m A w = r * qf m (second_block s T) w - qf s T (back m B w)).
    { intros w. unfold A. rewrite (qf_plus m (fun i l => r * second_block s T i l)), qf_scal.
      rewrite (qf_scal m (-1) (fun i l => rsum s (fun k => rsum s (fun j => B i k * T k j * B l j)))), (qf_congr m s B T). unfold back. ring. }
    assert (SA : psd m A).
    { split; [|intros w; rewrite QA; pose proof (canon_bound r w HR); lra]. intros a b Ha Hb. unfold A. rewrite (proj1 (second_pd T s m HP) a b Ha Hb). f_equal. f_equal.
      rewrite rsum_swap. apply rsum_ext. intros j Hj. apply rsum_ext. intros k Hk. rewrite (HT k j) by lia. ring. }
    pose proof (psd_null m A v SA) as N. assert (Z : qf m A v = 0) by (rewrite QA; lra). specialize (N Z i Hi). cbv beta in N.
    assert (X : rapp m A v i = r * rapp m (second_block s T) v i - rsum s (fun k => T (s + i)%nat k * back m B v k)); [|lra].
    unfold rapp at 1, A. rewrite (rsum_ext m _ (fun l => r * (second_block s T i l * v l) + -1 * (rsum s (fun k => rsum s (fun j => B i k * T k j * B l j)) * v l))) by (intros; ring).
    rewrite rsum_plus, !rsum_scal. fold (rapp m (second_block s T) v i).
    replace (rsum s (fun k => T (s + i)%nat k * back m B v k)) with (rsum m (fun l => rsum s (fun k => rsum s (fun j => B i k * T k j * B l j)) * v l)); [ring|].
    unfold back. transitivity (rsum m (fun l => rsum s (fun j => T (s + i)%nat j * (v l * B l j)))).
    - apply rsum_ext. intros l Hl. rewrite rsum_swap, <- rsum_scal_r. apply rsum_ext. intros j Hj. rewrite (T_KW T s m B S HL i j Hi Hj). unfold rmul.
      rewrite <- !rsum_scal_r. apply rsum_ext. intros; ring.
    - rewrite rsum_swap. apply rsum_ext. intros j Hj. now rewrite rsum_scal.
  Qed.

  (** ** the closed form with two blocks *)
  Section Closed.
    Context (C : rmat) (g : R) (Hg : g <> 0) (HC : sym (s + m) C) (H11 : meq s s C T) (HCL : law C g s m B S).
    Lemma closed_21 i j : (i < m)%nat -> (j < s)%nat -> C (s + i)%nat j = T (s + i)%nat j / g.
    Proof.
      intros Hi Hj. apply (Rmult_eq_reg_l g); auto. rewrite <- (proj1 HCL i j Hi Hj). replace (g * (T (s + i)%nat j / g)) with (1 * T (s + i)%nat j) by (field; auto).
      rewrite <- (proj1 HL i j Hi Hj). unfold rmul. apply rsum_ext. intros k Hk. now rewrite H11.
    Qed.
    Definition closed_schur : rmat := fun i l => S i l + - ((1 - g) / (g * g)) * rsum s (fun k => rsum s (fun j => B i k * T k j * B l j)).
    Lemma closed_law : law C 1 s m (fun i j => B i j / g) closed_schur.
    Proof.
      split.
      - intros i j Hi Hj. rewrite closed_21 by auto. replace (1 * (T (s + i)%nat j / g)) with (/ g * (1 * T (s + i)%nat j)) by (field; auto). rewrite <- (proj1 HL i j Hi Hj).
        unfold rmul. rewrite <- rsum_scal. apply rsum_ext. intros k Hk. rewrite H11 by auto. field. auto.
      - intros i l Hi Hl. unfold closed_schur. pose proof (proj2 HCL i l Hi Hl) as E.
        assert (X : rsum s (fun k => B i k * C k (s + l)%nat) = / g * rsum s (fun k => rsum s (fun j => B i k * T k j * B l j))).
        { rewrite <- (law_cross T 1 s m B S i l HT HL Hi Hl), Rmult_1_l, <- rsum_scal. apply rsum_ext. intros k Hk.
          rewrite (HC k (s + l)%nat), closed_21, (HT k (s + l)%nat) by lia. field. auto. }
        rewrite (rsum_ext s (fun k => B i k / g * C k (s + l)%nat) (fun k => / g * (B i k * C k (s + l)%nat))) by (intros; unfold Rdiv; ring). rewrite rsum_scal, X. rewrite X in E. rewrite E. field. auto.
    Qed.
    Lemma closed_pd : pd (s + m) C <-> forall v, not_zero m v -> (1 - g) * qf s T (back m B v) < g * g * qf m S v.
    Proof.
      assert (GG : 0 < g * g) by (apply Rdichotomy in Hg; nra).
      assert (QC : forall v, qf m closed_schur v = qf m S v - (1 - g) / (g * g) * qf s T (back m B v)).
      { intros v. unfold closed_schur. rewrite (qf_plus m S), (qf_scal m _ (fun i l => rsum s (fun k => rsum s (fun j => B i k * T k j * B l j)))), (qf_congr m s B T). unfold back. ring. }
      assert (QG : forall v, g * g * qf m closed_schur v = g * g * qf m S v - (1 - g) * qf s T (back m B v)) by (intros v; rewrite QC; field; auto).
      split.
      - intros H v Hv. pose proof (proj2 (schur_pd C s m _ _ HC closed_law H) v Hv) as Q. pose proof (QG v). assert (0 < g * g * qf m closed_schur v) by (apply Rmult_lt_0_compat; auto). lra.
      - intros H. refine (pd_from_schur C s m (fun i j => B i j / g) closed_schur HC closed_law _ _); [apply (pd_ext s T); [apply meq_sym; exact H11|exact HP1]|].
        split; [exact (law_sym C 1 s m _ _ ltac:(lra) HC closed_law)|]. intros v Hv. specialize (H v Hv). specialize (QG v).
        apply Rmult_lt_reg_l with (g * g); auto. lra.
    Qed.
    Lemma closed_pd_corr r : top_corr2 T s m r -> (pd (s + m) C <-> (1 - g) * r < g * g * (1 - r)).
    Proof.
      intros HR. pose proof (canon_range r HR) as RR. assert (GG : 0 < g * g) by (apply Rdichotomy in Hg; nra). rewrite closed_pd. split.
      - intros H. destruct (canon_attained r HR) as (v & Hv & E). specialize (H v Hv). pose proof (explained v) as X. pose proof (proj2 (second_pd T s m HP) v Hv) as Q.
        rewrite E in H. replace (qf m S v) with ((1 - r) * qf m (second_block s T) v) in H by lra. apply Rmult_lt_reg_r with (qf m (second_block s T) v); auto. lra.
      - intros H v Hv. pose proof (canon_bound r v HR) as CB. pose proof (explained v) as X. pose proof (proj2 (second_pd T s m HP) v Hv) as Q. pose proof (proj2 HPS v Hv) as QS.
        assert (E0 : 0 <= qf s T (back m B v)) by (apply (pd_psd _ _ HP1)).
        assert (PS : 0 < g * g * qf m S v) by (apply Rmult_lt_0_compat; auto).
        destruct (Rle_dec g 1) as [L1|L1].
        + assert (A1 : (1 - g) * qf s T (back m B v) <= (1 - g) * (r * qf m (second_block s T) v)) by (apply Rmult_le_compat_l; lra).
          assert (A2 : (1 - g) * r * qf m (second_block s T) v < g * g * (1 - r) * qf m (second_block s T) v) by (apply Rmult_lt_compat_r; auto).
          assert (A3 : g * g * ((1 - r) * qf m (second_block s T) v) <= g * g * qf m S v) by (apply Rmult_le_compat_l; lra). lra.
        + assert ((1 - g) * qf s T (back m B v) <= 0) by nra. lra.
    Qed.
  End Closed.
End TwoPd.

(** * precise/_linalg.py in exact arithmetic, with lawful LAPACK routines (proof infrastructure) *)
From Coq Require Import Reals ZArith List Lia Lra Arith Bool Setoid Morphisms.
From Verif Require Import Num Numpy LinalgModel ListLemmas RMat LinSpec Fin RealSpec Spectral MatAlg Contracts.
Import ListNotations.
Local Open Scope R_scope.

Lemma symm_sym n A : sym n (symm A).
Proof. intros i j _ _. unfold symm. lra. Qed.
Lemma symm_id n A : sym n A -> meq n n (symm A) A.
Proof. intros H i j Hi Hj. unfold symm. rewrite (H j i) by auto. lra. Qed.
Lemma symm_ext n A B : meq n n A B -> meq n n (symm A) (symm B).
Proof. intros H i j Hi Hj. unfold symm. now rewrite (H i j), (H j i). Qed.

(** the real matrix in a result *)
Definition mres (r : res (mat NumX)) : rmat := match r with Ok a => matR a | Err _ => fun _ _ => 0 end.
Lemma mres_ok p q r B : r = Ok (fm p q B) -> r = Ok (fm p q (mres r)) /\ meq p q (mres r) B.
Proof.
  intros ->. cbn [mres]. split; [|apply matR_fm]. f_equal. apply fm_ext. intros i j Hi Hj. symmetry. now apply matR_fm.
Qed.
Lemma fm_meq p q A B : meq p q A B -> fm p q A = fm p q B.
Proof. intros H. now apply fm_ext. Qed.
Lemma fm_meq_inv p q A B : fm p q A = fm p q B -> meq p q A B.
Proof. intros H i j Hi Hj. exact (fm_inj p q A B i j H Hi Hj). Qed.

(** ** Frobenius distance and projections *)
Lemma fro2_trace n A : fro2 n A = rtrace n (rmul n (rT A) A).
Proof. unfold fro2, rtrace, rmul, rT. rewrite rsum_swap. reflexivity. Qed.
Lemma fro2_meq n A B : meq n n A B -> fro2 n A = fro2 n B.
Proof. intros H. rewrite !fro2_trace. apply rtrace_ext. now rewrite H. Qed.
Lemma fro2_orth n U A : orth n U -> fro2 n (rmul n (rT U) (rmul n A U)) = fro2 n A.
Proof.
  intros [H1 H2]. rewrite !fro2_trace.
  rewrite (rtrace_ext n _ (rmul n (rT U) (rmul n (rmul n (rT A) A) U))).
  - rewrite rtrace_comm. apply rtrace_ext. now rewrite (mul_assoc n (rmul n (rT A) A) U), H2, mul_I_r.
  - rewrite !T_mul, T_T. rewrite (mul_assoc n (rmul n (rT U) (rT A)) U). rewrite (mul_assoc n (rT U) (rT A)).
    rewrite <- (mul_assoc n U (rT U)), H2, mul_I_l. now rewrite (mul_assoc n (rT A) A).
Qed.
Lemma spec_conj n U f : orth n U -> meq n n (rmul n (rT U) (rmul n (spec n U f) U)) (rdiag f).
Proof.
  intros [H1 H2].
  assert (E : meq n n (spec n U f) (rmul n U (rmul n (rdiag f) (rT U)))).
  { intros i j Hi Hj. unfold spec, rmul. apply rsum_ext. intros k Hk. unfold rdiag, rT.
    rewrite (rsum_ext n _ (fun l => if Nat.eqb k l then f k * U j l else 0)) by (intros l _; destruct (Nat.eqb k l); ring).
    rewrite rsum_delta' by auto. ring. }
  rewrite E. rewrite (mul_assoc n U), (mul_assoc n (rdiag f)), H1, mul_I_r. rewrite <- mul_assoc, H1. apply mul_I_l.
Qed.
Lemma fro2_diag n f : fro2 n (rdiag f) = rsum n (fun k => f k * f k).
Proof.
  unfold fro2. apply rsum_ext. intros i Hi. unfold rdiag.
  rewrite (rsum_ext n _ (fun j => if Nat.eqb i j then f i * f i else 0)) by (intros j _; destruct (Nat.eqb i j); ring).
  now rewrite rsum_delta'.
Qed.
Lemma fro2_ge_diag n A : rsum n (fun k => A k k * A k k) <= fro2 n A.
Proof.
  unfold fro2. apply rsum_le. intros i Hi. apply (rsum_ge_term n (fun j => A i j * A i j) i); auto. intros. apply Rle_0_sqr.
Qed.
(** clipping the eigenvalues at [lo] is the nearest matrix among those bounded below by [lo] *)
Lemma spec_nearest n U lam lo B : orth n U -> bounded_below n lo B ->
  fro2 n (fun i j => spec n U (fun k => Rmax (lam k) lo) i j - spec n U lam i j) <= fro2 n (fun i j => B i j - spec n U lam i j).
Proof.
  intros HU [HS HB].
  assert (C : forall X Y f, meq n n X (msub_ Y (spec n U f)) ->
     forall k, (k < n)%nat -> rmul n (rT U) (rmul n X U) k k = rmul n (rT U) (rmul n Y U) k k - f k).
  { intros X Y f E k Hk. rewrite (rmul_ext n n n (rT U) (rT U) (rmul n X U) (msub_ (rmul n Y U) (rmul n (spec n U f) U)));
      auto using meq_refl.
    - rewrite mul_sub_r. rewrite (spec_conj n U f HU k k Hk Hk). unfold rdiag. now rewrite Nat.eqb_refl.
    - intros i j Hi Hj. unfold msub_ at 1. rewrite <- mul_sub_l. apply (rmul_ext n n n); auto using meq_refl. }
  rewrite <- (fro2_orth n U (fun i j => B i j - _) HU).
  eapply Rle_trans; [|apply fro2_ge_diag].
  rewrite <- (fro2_orth n U _ HU).
  rewrite (fro2_meq n _ (rdiag (fun k => Rmax (lam k) lo - lam k))).
  - rewrite fro2_diag. apply rsum_le. intros k Hk.
    rewrite (C (fun i j => B i j - spec n U lam i j) B lam (meq_refl _ _ _) k Hk).
    assert (Hq : lo <= rmul n (rT U) (rmul n B U) k k).
    { specialize (HB (fun i => U i k)). destruct (spec_col n U lam k HU Hk) as [_ E2]. rewrite E2 in HB.
      replace (rmul n (rT U) (rmul n B U) k k) with (qf n B (fun i => U i k)); [lra|].
      unfold qf, rmul, rT. apply rsum_ext. intros i _. rewrite <- rsum_scal. apply rsum_ext. intros; ring. }
    set (q := rmul n (rT U) (rmul n B U) k k) in *. clearbody q. unfold Rmax. destruct (Rle_dec (lam k) lo).
    + apply Rmult_le_compat; lra.
    + replace ((lam k - lam k) * (lam k - lam k)) with 0 by ring. apply Rle_0_sqr.
  - rewrite <- (spec_conj n U _ HU). apply rmul_proper; [reflexivity|]. apply rmul_proper; [|reflexivity].
    intros i j Hi Hj. unfold spec. rewrite <- rsum_minus. apply rsum_ext. intros; ring.
Qed.

Section L.
  Context (L : LinAlg NumX) (HL : lawful L).

  (** ** try_invert *)
  Definition tinv (p : nat) (S : rmat) : rmat := mres (try_invert L (fm p p S)).
  Lemma tinv_ok p S : (1 <= p)%nat -> sym p S ->
    try_invert L (fm p p S) = Ok (fm p p (tinv p S)) /\ penrose p S (tinv p S).
  Proof.
    intros Hp HS. unfold tinv.
    assert (K : exists B, try_invert L (fm p p S) = Ok (fm p p B) /\ penrose p S B).
    { unfold try_invert. destruct (law_inv L HL p S Hp HS) as [(B & E & H)|[E H]].
      - rewrite E. exists B. split; auto. now apply inverse_penrose.
      - rewrite E. destruct (law_pinv L HL p S Hp HS) as (B & E' & H'). rewrite E'. eauto. }
    destruct K as (B & E & H). destruct (mres_ok p p _ B E) as [E1 E2]. split; auto.
    apply (penrose_ext p S S B); auto; [reflexivity|now symmetry].
  Qed.
  Lemma tinv_psd p S : (1 <= p)%nat -> psd p S -> psd p (tinv p S).
  Proof. intros Hp HS. apply (penrose_psd p S); auto. apply tinv_ok; auto. apply HS. Qed.
  Lemma tinv_inverse p S : (1 <= p)%nat -> sym p S -> invertible p S -> inverse p S (tinv p S).
  Proof.
    intros Hp HS (B & HB). apply (inverse_ext p S S B); auto; [reflexivity|].
    apply (penrose_unique p S); [now apply inverse_penrose|now apply tinv_ok].
  Qed.
  Lemma tinv_ext p S S' : meq p p S S' -> tinv p S = tinv p S'.
  Proof. intros H. unfold tinv. now rewrite (fm_meq p p S S' H). Qed.

  (** ** make_pos_def *)
  Definition mpd (p : nat) (A : rmat) : rmat := mres (make_pos_def L (fm p p A)).
  Lemma mpd_spec p A : (1 <= p)%nat -> exists U lam, eig_of p (symm A) U lam /\
    make_pos_def L (fm p p A) = Ok (fm p p (spec p U (fun k => Rmax (lam k) e8))).
  Proof.
    intros Hp. unfold make_pos_def. rewrite to_symmetric_fin. cbn [bind]. fold (symm A).
    destruct (law_eigh L HL p (symm A) Hp (symm_sym p A)) as (lam & U & E & He).
    rewrite E. cbn [bind]. exists U, lam. split; auto.
    rewrite (map_fin p _ (fun k => Rmax (lam k) e8)) by (intros; now rewrite lit8, np_clip_lo_fin).
    rewrite rows_vmul_fin. cbn [bind]. rewrite transpose_sq_fin, matmul_fin by auto. cbn [bind].
    apply to_symmetric_sym_fin. exact (spec_sym p U (fun k => Rmax (lam k) e8)).
  Qed.
  Lemma mpd_ok p A : (1 <= p)%nat -> make_pos_def L (fm p p A) = Ok (fm p p (mpd p A)) /\ bounded_below p e8 (mpd p A).
  Proof.
    intros Hp. destruct (mpd_spec p A Hp) as (U & lam & He & E). destruct (mres_ok p p _ _ E) as [E1 E2]. split; auto.
    apply (bb_ext p e8 (spec p U (fun k => Rmax (lam k) e8))); [now symmetry|]. apply spec_bb; [apply He|]. intros. apply Rmax_r.
  Qed.
  Lemma mpd_ext p A B : meq p p A B -> mpd p A = mpd p B.
  Proof. intros H. unfold mpd. now rewrite (fm_meq p p A B H). Qed.
  Lemma mpd_fix p A : (1 <= p)%nat -> bounded_below p e8 (symm A) -> meq p p (mpd p A) (symm A).
  Proof.
    intros Hp HB. destruct (mpd_spec p A Hp) as (U & lam & He & E). destruct (mres_ok p p _ _ E) as [_ E2].
    unfold mpd. rewrite E2. rewrite (eig_spec p _ U lam He) . apply spec_ext. intros k Hk. apply Rmax_left.
    apply (spec_bb_inv p U lam e8); auto; [apply He|]. now apply (bb_ext p e8 (symm A)); [apply eig_spec|].
  Qed.
  Lemma mpd_nearest p A B : (1 <= p)%nat -> bounded_below p e8 B ->
    fro2 p (fun i j => mpd p A i j - symm A i j) <= fro2 p (fun i j => B i j - symm A i j).
  Proof.
    intros Hp HB. destruct (mpd_spec p A Hp) as (U & lam & He & E). destruct (mres_ok p p _ _ E) as [_ E2].
    pose proof (spec_nearest p U lam e8 B (proj1 He) HB) as H.
    rewrite (fro2_meq p (fun i j => mpd p A i j - symm A i j)
       (fun i j => spec p U (fun k => Rmax (lam k) e8) i j - spec p U lam i j)).
    - rewrite (fro2_meq p (fun i j => B i j - symm A i j) (fun i j => B i j - spec p U lam i j)); auto.
      intros i j Hi Hj. now rewrite (eig_spec p _ U lam He i j).
    - intros i j Hi Hj. unfold mpd. now rewrite (E2 i j), (eig_spec p _ U lam He i j).
  Qed.

  (** ** is_positive_def, nearest_pos_def *)
  Lemma ipd_true p A : (1 <= p)%nat -> pd p A -> is_positive_def L (fm p p A) = Ok true.
  Proof.
    intros Hp H. unfold is_positive_def. destruct (law_cholesky L HL p A Hp (proj1 H)) as [H1 _]. destruct (H1 H) as (C & ->). reflexivity.
  Qed.
  Lemma ipd_false p A : (1 <= p)%nat -> sym p A -> ~ pd p A -> is_positive_def L (fm p p A) = Ok false.
  Proof.
    intros Hp HS H. unfold is_positive_def. destruct (law_cholesky L HL p A Hp HS) as [_ H2]. now rewrite (H2 H).
  Qed.
  Lemma vmin_fin p f : (1 <= p)%nat -> exists k, (k < p)%nat /\ vmin (fv p f) = Ok (Fin (f k)) /\ forall i, (i < p)%nat -> f k <= f i.
  Proof.
    intros Hp. destruct p as [|p]; [lia|]. clear Hp.
    assert (E : fv (S p) f = (Fin (f O) : NumX) :: fv p (fun i => f (S i))).
    { unfold fv, tab. cbn [seq map]. f_equal. rewrite <- seq_shift, map_map. reflexivity. }
    rewrite E. cbn [vmin].
    assert (G : forall q g x, exists k, (k <= q)%nat /\
      fold_left np_min (fv q g) (Fin x : NumX) = Fin (match k with O => x | S i => g i end) /\
      (match k with O => x | S i => g i end) <= x /\ forall i, (i < q)%nat -> (match k with O => x | S i => g i end) <= g i).
    { induction q as [|q IH]; intros g x.
      - exists O. split; [lia|]. split; [reflexivity|]. split; [lra|intros; lia].
      - assert (E' : fv (S q) g = (Fin (g O) : NumX) :: fv q (fun i => g (S i))).
        { unfold fv, tab. cbn [seq map]. f_equal. rewrite <- seq_shift, map_map. reflexivity. }
        rewrite E'. cbn [fold_left]. rewrite np_min_fin.
        destruct (IH (fun i => g (S i)) (Rmin x (g O))) as (k & Hk & Ek & L1 & L2).
        pose proof (Rmin_l x (g O)). pose proof (Rmin_r x (g O)).
        destruct k as [|k].
        + unfold Rmin in *. destruct (Rle_dec x (g O)).
          * exists O. split; [lia|]. split; [auto|]. split; [lra|]. intros [|i] Hi; [lra|apply L2; lia].
          * exists 1%nat. split; [lia|]. split; [auto|]. split; [lra|]. intros [|i] Hi; [lra|apply L2; lia].
        + exists (S (S k)). split; [lia|]. split; [auto|]. split; [lra|]. intros [|i] Hi; [lra|apply L2; lia]. }
    destruct (G p (fun i => f (S i)) (f O)) as (k & Hk & Ek & L1 & L2). exists k. split; [lia|].
    replace (match k with O => f O | S i => f (S i) end) with (f k) in * by now destruct k.
    split; [now rewrite Ek|]. intros [|i] Hi; [auto|apply L2; lia].
  Qed.
  Lemma orth_T n U : orth n U -> orth n (rT U).
  Proof. intros [H1 H2]. split; [exact H2|exact H1]. Qed.
  (** the symmetric polar factor of b is its absolute value *)
  Lemma polar_abs p b U s V W mu : sym p b -> orth p U -> orth p V -> (forall k, (k < p)%nat -> 0 <= s k) ->
    (forall i j, (i < p)%nat -> (j < p)%nat -> b i j = rsum p (fun k => U i k * s k * V k j)) ->
    eig_of p b W mu -> meq p p (spec p (rT V) s) (spec p W (fun k => Rabs (mu k))).
  Proof.
    intros HS HU HV Hs Hb HW. apply psd_sqrt_unique.
    - apply bb_psd, spec_bb; auto using orth_T.
    - apply bb_psd, spec_bb; [apply HW|]. intros. apply Rabs_pos.
    - rewrite !spec_mul by (auto using orth_T; apply HW).
      transitivity (rmul p b b).
      + set (D := rmul p U (rdiag s)).
        assert (Eb : meq p p b (rmul p D V)).
        { intros i j Hi Hj. rewrite (Hb i j Hi Hj). unfold rmul at 1. apply rsum_ext. intros k Hk. f_equal. unfold D, rmul, rdiag.
          rewrite (rsum_ext p _ (fun l => if Nat.eqb l k then U i l * s l else 0)) by (intros l _; destruct (Nat.eqb l k); ring).
          now rewrite rsum_delta. }
        assert (ET : meq p p (rT b) b) by now apply (proj1 (sym_T p b)).
        rewrite <- ET at 1. rewrite Eb at 1 2. rewrite T_mul. unfold D. rewrite T_mul. destruct HU as [HU _].
        rewrite !mul_assoc. rewrite <- (mul_assoc p (rT U) U), HU, mul_I_l.
        intros i j Hi Hj. unfold spec, rmul. apply rsum_ext. intros k Hk. unfold rT at 1 2. rewrite Rmult_assoc. f_equal.
        unfold rT, rdiag.
        rewrite (rsum_ext p _ (fun l => if Nat.eqb l k then s l * (s l * V l j) else 0)).
        * rewrite rsum_delta by auto. ring.
        * intros l Hl. destruct (Nat.eqb l k) eqn:E; [|ring].
          rewrite (rsum_ext p _ (fun m => if Nat.eqb l m then s l * V m j else 0)) by (intros m _; destruct (Nat.eqb l m); ring).
          now rewrite rsum_delta'.
      + pose proof (eig_spec p b W mu HW) as E. rewrite E. rewrite spec_mul by apply HW. apply spec_ext. intros k _.
        unfold Rabs. destruct (Rcase_abs (mu k)); ring.
  Qed.
  Definition eigmax0 (p : nat) (W : rmat) (mu : nat -> R) : rmat := spec p W (fun k => Rmax (mu k) 0).
  Lemma npd_spec p A fuel : (1 <= p)%nat -> (1 <= fuel)%nat -> exists W mu e, eig_of p (symm A) W mu /\ 0 < e /\
    la_spacing L (mnorm (fm p p A)) = Fin e /\
    let P := eigmax0 p W mu in
    (pd p P /\ nearest_pos_def L fuel (fm p p A) = Ok (fm p p P)) \/
    (~ pd p P /\ nearest_pos_def L fuel (fm p p A) = Ok (fm p p (fun i j => P i j + e * rI i j))).
  Proof.
    intros Hp Hf. destruct (spectral p (symm A) (symm_sym p A)) as (W & mu & HW).
    assert (Hn : exists x, 0 <= x /\ mnorm (fm p p A) = Fin x).
    { exists (sqrt (fro2 p A)). split; [apply sqrt_pos|]. unfold mnorm. rewrite (mmap_fin p p _ A (fun i j => A i j * A i j)) by (intros; reflexivity).
      rewrite msum_fin. apply sqrt_fin. apply rsum_nonneg. intros. apply rsum_nonneg. intros. apply Rle_0_sqr. }
    destruct Hn as (x & Hx & En). destruct (law_spacing L HL x Hx) as (e & He & Ee).
    exists W, mu, e. split; auto. split; auto. split; [now rewrite En|]. intros P.
    set (P0 := eigmax0 p W mu) in P.
    unfold nearest_pos_def. rewrite to_symmetric_fin. cbn [bind]. fold (symm A).
    destruct (law_svd L HL p (symm A) Hp (symm_sym p A)) as (U & s & V & E & HU & HV & Hs & Hb). rewrite E. cbn [bind].
    rewrite transpose_sq_fin, mdiag_fin, matmul_fin by auto. cbn [bind]. rewrite matmul_fin by auto. cbn [bind].
    rewrite (fm_meq p p (rmul p (rmul p (rT V) (rdiag s)) V) (spec p W (fun k => Rabs (mu k)))).
    2:{ rewrite <- (polar_abs p (symm A) U s V W mu); auto using symm_sym. intros i j Hi Hj.
        unfold rmul, spec, rT. apply rsum_ext. intros k Hk. f_equal. unfold rdiag.
        rewrite (rsum_ext p _ (fun l => if Nat.eqb l k then V l i * s l else 0)) by (intros l _; destruct (Nat.eqb l k); ring).
        now rewrite rsum_delta. }
    rewrite madd_fin. cbn [bind]. rewrite nofZ_fin, mdivs_fin by lra.
    assert (EP : meq p p (fun i j => (symm A i j + spec p W (fun k => Rabs (mu k)) i j) / 2) P).
    { intros i j Hi Hj. rewrite (eig_spec p _ W mu HW i j Hi Hj). unfold P, P0, eigmax0, spec. rewrite <- rsum_plus, <- rsum_div.
      apply rsum_ext. intros k _. unfold Rmax, Rabs. destruct (Rle_dec (mu k) 0), (Rcase_abs (mu k)); try lra.
      - replace (mu k) with 0 by lra. lra. }
    rewrite (fm_meq p p _ P EP).
    assert (SP : sym p P) by apply spec_sym.
    assert (PP : psd p P). { apply bb_psd, spec_bb; [apply HW|]. intros. apply Rmax_r. }
    rewrite to_symmetric_sym_fin by auto. cbn [bind].
    destruct (Classical_Prop.classic (pd p P)) as [Y|N].
    - left. split; auto. now rewrite ipd_true.
    - right. split; auto. rewrite ipd_false by auto. cbn [bind].
      rewrite En, Ee. rewrite fm_nrows. destruct fuel as [|fuel]; [lia|]. cbn [npd_loop].
      rewrite ipd_false by auto. cbn [bind].
      destruct (law_eigvals L HL p P Hp SP) as (lam & U' & El & HU'). rewrite El. cbn [bind].
      destruct (vmin_fin p lam Hp) as (k & Hk & Ek & Lk). rewrite Ek. cbn [bind].
      assert (Z : lam k = 0).
      { pose proof (psd_eig p P U' lam PP HU' k Hk) as Z0. destruct Z0 as [Z0|Z0]; [|auto]. exfalso. apply N.
        apply (bb_pd p (lam k)); auto. apply (bb_ext p (lam k) (spec p U' lam)); [symmetry; now apply eig_spec|].
        apply spec_bb; [apply HU'|]. auto. }
      rewrite Z. rewrite meye_fin. rewrite (mmap_fin p p _ rI (fun i j => e * rI i j)).
      2:{ intros i j Hi Hj. rewrite nofn_fin, opp_fin, mul_fin, add_fin, mul_fin. f_equal. ring. }
      rewrite madd_fin. cbn [bind].
      assert (Y : pd p (fun i j => P i j + e * rI i j)).
      { apply (bb_pd p e); auto. split.
        - intros i j Hi Hj. rewrite (SP i j) by auto. f_equal. unfold rI. now rewrite Nat.eqb_sym.
        - intros v. rewrite qf_plus, qf_scal. pose proof (proj2 PP v). 
          replace (qf p rI v) with (rdot p v v); [lra|]. rewrite qf_app. apply rdot_ext; [intros i Hi; reflexivity|].
          intros i Hi. symmetry. now apply rapp_I. }
      destruct fuel; cbn [npd_loop]; now rewrite ipd_true by auto.
  Qed.

  (** ** geodesic_step *)
  Lemma pd_congr n A B : pd n A -> invertible n B -> pd n (rmul n (rT B) (rmul n A B)).
  Proof.
    intros HA HB. apply psd_invertible_pd; [apply psd_congr; now apply pd_psd|].
    destruct (pd_invertible n A HA) as (C & c1 & c2). destruct HB as (D & d1 & d2).
    assert (t1 : meq n n (rmul n (rT B) (rT D)) rI).
    { rewrite <- T_mul, d2. intros i j _ _. unfold rT, rI. now rewrite Nat.eqb_sym. }
    assert (t2 : meq n n (rmul n (rT D) (rT B)) rI).
    { rewrite <- T_mul, d1. intros i j _ _. unfold rT, rI. now rewrite Nat.eqb_sym. }
    exists (rmul n D (rmul n C (rT D))). split.
    - rewrite !mul_assoc. rewrite <- (mul_assoc n B D), d1, mul_I_l. rewrite <- (mul_assoc n A C), c1, mul_I_l. exact t1.
    - rewrite !mul_assoc. rewrite <- (mul_assoc n (rT D) (rT B)), t2, mul_I_l. rewrite <- (mul_assoc n C A), c2, mul_I_l. exact d2.
  Qed.
  Lemma spec_cong n R U f : sym n R -> meq n n (spec n (rmul n R U) f) (rmul n R (rmul n (spec n U f) R)).
  Proof.
    intros HR i j Hi Hj. unfold spec, rmul.
    rewrite (rsum_ext n _ (fun k => rsum n (fun a => rsum n (fun b => R i a * (U a k * f k * U b k * R b j))))).
    2:{ intros k Hk. rewrite (Rmult_assoc (rsum n _)). rewrite <- rsum_scal_r. apply rsum_ext. intros a Ha.
        rewrite <- rsum_scal. rewrite <- rsum_scal. apply rsum_ext. intros b Hb. rewrite (HR j b) by auto. ring. }
    rewrite rsum_swap. apply rsum_ext. intros a Ha. rewrite rsum_swap. rewrite <- rsum_scal.
    apply rsum_ext. intros b Hb. rewrite <- rsum_scal_r. rewrite <- rsum_scal. apply rsum_ext. intros; ring.
  Qed.
  Definition gstep (p : nat) (S E : rmat) (g : R) : rmat := mres (geodesic_step L (fm p p S) (fm p p E) (Fin g)).
  Lemma gstep_spec p S E g : (1 <= p)%nat -> exists Q l, (forall k, (k < p)%nat -> 0 < l k) /\
    meq p p (mpd p S) (spec p Q (fun _ => 1)) /\ meq p p (mpd p E) (spec p Q l) /\
    (exists B, geodesic_step L (fm p p S) (fm p p E) (Fin g) = Ok (fm p p B) /\ pd p B /\
       meq p p B (spec p Q (fun k => Rpower (l k) g))).
  Proof.
    intros Hp. destruct (mpd_ok p S Hp) as [ES BS]. destruct (mpd_ok p E Hp) as [EE BE].
    unfold geodesic_step. rewrite ES, EE. cbn [bind]. set (S' := mpd p S) in *. set (E' := mpd p E) in *.
    destruct (law_eigh L HL p S' Hp (proj1 BS)) as (ls & Us & El & Hl). rewrite El. cbn [bind].
    pose proof (proj1 Hl) as HUs.
    assert (PS : forall k, (k < p)%nat -> e8 <= ls k).
    { apply (spec_bb_inv p Us ls e8); auto. apply (bb_ext p e8 S'); auto. now apply eig_spec. }
    assert (e8' : e12 <= e8) by (unfold e12, e8; lra). pose proof e8_pos as e8p.
    rewrite (map_fin p _ ls).
    2:{ intros k Hk. rewrite EPS_fin, np_clip_lo_fin. f_equal. apply Rmax_left. specialize (PS k Hk). lra. }
    rewrite (map_fin p _ (fun k => sqrt (ls k))) by (intros k Hk; apply sqrt_fin; specialize (PS k Hk); lra).
    rewrite (map_fin p _ (fun k => 1 / sqrt (ls k))).
    2:{ intros k Hk. specialize (PS k Hk). rewrite sqrt_fin by lra. apply div_fin. apply Rgt_not_eq, sqrt_lt_R0. lra. }
    rewrite !rows_vmul_fin. cbn [bind]. rewrite !transpose_sq_fin, !matmul_fin by auto. cbn [bind].
    change (rmul p (fun i j => Us i j * sqrt (ls j)) (rT Us)) with (spec p Us (fun k => sqrt (ls k))).
    change (rmul p (fun i j => Us i j * (1 / sqrt (ls j))) (rT Us)) with (spec p Us (fun k => 1 / sqrt (ls k))).
    set (R := spec p Us (fun k => sqrt (ls k))). set (Ri := spec p Us (fun k => 1 / sqrt (ls k))).
    assert (SR : sym p R) by apply spec_sym. assert (SRi : sym p Ri) by apply spec_sym.
    assert (TRi : meq p p (rT Ri) Ri) by now apply (proj1 (sym_T p Ri)).
    assert (TR : meq p p (rT R) R) by now apply (proj1 (sym_T p R)).
    assert (RR : meq p p (rmul p R R) S').
    { unfold R. rewrite spec_mul by auto. rewrite (eig_spec p S' Us ls Hl). apply spec_ext. intros k Hk. apply sqrt_sqrt. specialize (PS k Hk). lra. }
    assert (RRi : inverse p R Ri).
    { assert (forall k, (k < p)%nat -> sqrt (ls k) <> 0) by (intros k Hk; specialize (PS k Hk); apply Rgt_not_eq, sqrt_lt_R0; lra).
      split; unfold R, Ri; rewrite spec_mul by auto; apply spec_one; auto; intros k Hk; field; auto. }
    assert (IRi : invertible p Ri) by (exists R; destruct RRi; now split).
    assert (IR : invertible p R) by (exists Ri; auto).
    rewrite matmul_fin by auto. cbn [bind]. rewrite ?matmul_fin by auto. cbn [bind].
    assert (EM : meq p p (rmul p (rmul p Ri E') Ri) (rmul p (rT Ri) (rmul p E' Ri))) by (rewrite TRi; apply mul_assoc).
    rewrite (fm_meq p p _ _ EM). set (M := rmul p (rT Ri) (rmul p E' Ri)).
    assert (PM : pd p M). { apply pd_congr; auto. now apply (bb_pd p e8). }
    rewrite to_symmetric_sym_fin by apply PM. cbn [bind].
    destruct (law_eigh L HL p M Hp (proj1 PM)) as (l & U & Em & Hm). rewrite Em. cbn [bind]. pose proof (proj1 Hm) as HU.
    assert (Pl : forall k, (k < p)%nat -> 0 < l k) by now apply (pd_eig p M U).
    rewrite (map_fin p _ (fun k => Rpower (l k) g)).
    2:{ intros k Hk. specialize (Pl k Hk). rewrite n0_fin, np_clip_lo_fin, Rmax_left by lra. now apply (law_pow L HL). }
    rewrite rows_vmul_fin. cbn [bind]. rewrite transpose_sq_fin, matmul_fin by auto. cbn [bind].
    change (rmul p (fun i j => U i j * Rpower (l j) g) (rT U)) with (spec p U (fun k => Rpower (l k) g)).
    rewrite matmul_fin by auto. cbn [bind]. rewrite matmul_fin by auto. cbn [bind].
    exists (rmul p R U), l. split; auto. split; [|split].
    - rewrite spec_cong by auto. rewrite (spec_one p U (fun _ => 1)) by (auto; intros k Hk; reflexivity). rewrite mul_I_l. now symmetry.
    - rewrite spec_cong by auto. rewrite <- (eig_spec p M U l Hm). unfold M. rewrite TRi. destruct RRi as [R1 R2].
      rewrite !mul_assoc, R2, mul_I_r. rewrite <- mul_assoc, R1. now rewrite mul_I_l.
    - set (f := fun k => Rpower (l k) g).
      assert (EB : meq p p (rmul p (rmul p R (spec p U f)) R) (rmul p (rT R) (rmul p (spec p U f) R))) by (rewrite TR; apply mul_assoc).
      assert (PB : pd p (rmul p (rT R) (rmul p (spec p U f) R))).
      { apply pd_congr; auto. apply psd_invertible_pd.
        - apply bb_psd, spec_bb; auto. intros k Hk. unfold f, Rpower. apply Rlt_le, exp_pos.
        - eexists. apply spec_inverse; auto. intros k Hk. unfold f, Rpower. apply Rgt_not_eq, exp_pos. }
      exists (rmul p (rT R) (rmul p (spec p U f) R)). split; [|split; auto].
      + rewrite (fm_meq p p _ _ EB). apply to_symmetric_sym_fin. apply PB.
      + rewrite spec_cong by auto. now rewrite TR.
  Qed.
  Lemma gstep_ok p S E g : (1 <= p)%nat -> geodesic_step L (fm p p S) (fm p p E) (Fin g) = Ok (fm p p (gstep p S E g)) /\ pd p (gstep p S E g).
  Proof.
    intros Hp. destruct (gstep_spec p S E g Hp) as (Q & l & _ & _ & _ & B & EB & PB & _).
    destruct (mres_ok p p _ _ EB) as [E1 E2]. split; auto. apply (pd_ext p B); auto. now symmetry.
  Qed.
End L.

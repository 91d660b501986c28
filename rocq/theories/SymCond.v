(** * Reordering inside the blocks of SchurConditionalCovariance *)
From Coq Require Import Reals ZArith String List Lia Lra Arith Bool.
From Verif Require Import Num Numpy PyVal LinalgModel StateModel BaseModel Estimators Spec ListLemmas BaseProofs
  RMat LinSpec Fin RealSpec RunFin EwaReal RunAvg EmpFacts Props_Emp ShrinkReal Spectral MatAlg Contracts LinalgReal
  BlockSpec BlockGeom BlockReal BlockRun BlockRun2 SchurCondSpec SchurCondReal SymSpec SymReal SymRun SymGeo SymPerm Props_Sym Props_SymShift.
Import ListNotations.
Local Open Scope string_scope.
Local Open Scope R_scope.

(** every variable stays in its own block *)
Definition fixes_blocks (p k : nat) (sg : nat -> nat) : Prop :=
  forall i, (i < p)%nat -> block_of p k (sg i) = block_of p k i.
Lemma fixes_keeps p k sg : fixes_blocks p k sg -> keeps_blocks p k sg.
Proof. intros H i j Hi Hj. now rewrite !H by auto. Qed.

Lemma invertible_sim p A S : similarity p 1 A -> invertible p S -> invertible p (congr p A S).
Proof.
  intros HA (B & B1 & B2). exists (congr p A B). split.
  - rewrite (congr_mulmul p 1 A HA S B). intros i j Hi Hj. rewrite Rmult_1_l. rewrite (congr_meq p A _ _ B1 i j Hi Hj).
    rewrite (congr_I p 1 A HA i j Hi Hj). ring.
  - rewrite (congr_mulmul p 1 A HA B S). intros i j Hi Hj. rewrite Rmult_1_l. rewrite (congr_meq p A _ _ B2 i j Hi Hj).
    rewrite (congr_I p 1 A HA i j Hi Hj). ring.
Qed.
Lemma invertible_perm a sg S S' : reorders a sg -> (forall i j, (i < a)%nat -> (j < a)%nat -> S' i j = S (sg i) (sg j)) ->
  (invertible a S' <-> invertible a S).
Proof.
  intros HS E. pose proof (Pm_similarity a sg HS) as HP.
  assert (EC : meq a a S' (congr a (Pm sg) S)) by (intros i j Hi Hj; rewrite E by auto; symmetry; apply congr_Pm; now apply (proj1 HS)).
  split; intros H.
  - apply (invertible_ext a (congr a (rT (Pm sg)) (congr a (Pm sg) S))); [now apply congr_T_back|].
    apply invertible_sim; [now apply similarity_T|]. now apply (invertible_ext a S').
  - apply (invertible_ext a (congr a (Pm sg) S)); [now apply meq_sym|]. now apply invertible_sim.
Qed.
Lemma solve_unique a m A X Y : invertible a A ->
  (forall i v, (i < a)%nat -> (v < m)%nat -> rsum a (fun l => A i l * X l v) = rsum a (fun l => A i l * Y l v)) ->
  forall i v, (i < a)%nat -> (v < m)%nat -> X i v = Y i v.
Proof.
  intros (B & _ & B2) E i v Hi Hv.
  assert (K : forall Z : rmat, rsum a (fun l => B i l * rsum a (fun l' => A l l' * Z l' v)) = Z i v).
  { intros Z. rewrite <- (rapp_I a (fun l => Z l v) i Hi) at 1.
    rewrite (rsum_ext a _ (fun l => rsum a (fun l' => B i l * A l l' * Z l' v))) by (intros l _; rewrite <- rsum_scal; apply rsum_ext; intros; ring).
    rewrite rsum_swap. apply rsum_ext. intros l Hl. rewrite <- (B2 i l Hi Hl). unfold rmul. rewrite (Rmult_comm (rsum _ _)), <- rsum_scal.
    apply rsum_ext. intros; ring. }
  rewrite <- (K X), <- (K Y). apply rsum_ext. intros l Hl. f_equal. now apply E.
Qed.

Section L.
  Context (L : LinAlg NumX) (HL : lawful L).

  Definition sc_Q (a : nat) (Rm H : rmat) : rmat := fun u v => Rm (a + u)%nat (a + v)%nat - rsum a (fun l => Rm l (a + u)%nat * H l v).
  Definition sc_G (a m : nat) (g : R) (Rm G H : rmat) : rmat :=
    glue a G (fun u j => rsum a (fun l => g * H l u * G l j))
      (fun u v => (1 - g) * Rm (a + u)%nat (a + v)%nat + g * mpd L m (symm (sc_Q a Rm H)) u v +
         rsum a (fun l' => rsum a (fun l => g * H l u * G l l') * (g * H l' v))).
  Lemma sc_block_eq p Rm g n a m G : (1 <= a)%nat -> (1 <= m)%nat -> (a + m <= p)%nat -> 0 < n -> sym p Rm ->
    (sc_block L (fm p p Rm) (Fin g) (Fin n) (fm a a G) (a, (a + m)%nat) = Err LinAlgError /\ ~ invertible a (regularised a n Rm)) \/
    exists H, invertible a (regularised a n Rm) /\
      (forall i v, (i < a)%nat -> (v < m)%nat -> rsum a (fun l => regularised a n Rm i l * H l v) = Rm i (a + v)%nat) /\
      sc_block L (fm p p Rm) (Fin g) (Fin n) (fm a a G) (a, (a + m)%nat) = Ok (fm (a + m) (a + m) (sc_G a m g Rm G H)).
  Proof.
    intros Ha Hm Hp Hn HR. unfold sc_block. cbn [fst snd].
    rewrite !mslice_fin by lia. rewrite !Nat.sub_0_r. replace (a + m - a)%nat with m by lia.
    rewrite diagonal_fin, nofn_fin, div_fin, nlit_fin, n0_fin, np_clip_fin by lra.
    replace (IZR 9 / IZR (10 ^ Z.of_nat 1)) with (9 / 10) by (cbn; lra). rewrite ridge_clip by auto.
    rewrite n1_fin, !sub_fin, !mscale_fin, mdiag_fin, mscale_fin, madd_fin. cbn [bind].
    rewrite meye_fin, nlit_fin, mscale_fin, madd_fin. cbn [bind].
    rewrite (fm_ext a a _ (regularised a n Rm)).
    2:{ intros i j Hi Hj. unfold regularised, rdiag, rI. cbn [plus]. destruct (Nat.eqb_spec i j) as [->|].
        - change (IZR (10 ^ Z.of_nat 10)) with 10000000000. lra.
        - ring. }
    assert (Hs : sym a (regularised a n Rm)) by (apply regularised_sym; intros i j Hi Hj; apply HR; lia).
    destruct (law_solve L HL a m (regularised a n Rm) (fun i j => Rm (0 + i)%nat (a + j)%nat) Ha Hs) as [(H & E & HI & HE)|[E HI]].
    - right. rewrite E. cbn [bind]. rewrite transpose_fin by auto. rewrite matmul_fin by auto. cbn [bind]. rewrite msub_fin. cbn [bind].
      rewrite to_symmetric_fin. cbn [bind].
      match goal with |- context [make_pos_def L (fm m m ?F)] => change F with (symm (sc_Q a Rm H)) end.
      destruct (mpd_ok L HL m (symm (sc_Q a Rm H)) Hm) as [EM _]. rewrite EM. cbn [bind].
      rewrite !mscale_fin, madd_fin. cbn [bind]. rewrite transpose_fin by auto. rewrite matmul_fin by auto. cbn [bind]. rewrite matmul_fin by auto. cbn [bind].
      rewrite madd_fin. cbn [bind]. rewrite transpose_fin by auto.
      exists H. split; [exact HI|]. split.
      + intros i v Hi Hv. exact (HE i v Hi Hv).
      + rewrite grow_fin. reflexivity.
    - left. rewrite E. split; [reflexivity|exact HI].
  Qed.

  (** One conditioning step commutes with a reordering that keeps the first a variables and the next m apart. *)
  Lemma sc_block_perm p Rm Rm' g n a m G G' sg : (1 <= a)%nat -> (1 <= m)%nat -> (a + m <= p)%nat -> 0 < n -> sym p Rm -> sym p Rm' ->
    reorders a sg -> (forall u, (u < m)%nat -> (a <= sg (a + u)%nat < a + m)%nat) ->
    (forall u v, (u < m)%nat -> (v < m)%nat -> sg (a + u)%nat = sg (a + v)%nat -> u = v) ->
    (forall i j, (i < a + m)%nat -> (j < a + m)%nat -> Rm' i j = Rm (sg i) (sg j)) ->
    (forall i j, (i < a)%nat -> (j < a)%nat -> G' i j = G (sg i) (sg j)) ->
    let x := sc_block L (fm p p Rm) (Fin g) (Fin n) (fm a a G) (a, (a + m)%nat) in
    let y := sc_block L (fm p p Rm') (Fin g) (Fin n) (fm a a G') (a, (a + m)%nat) in
    (x = Err LinAlgError /\ y = Err LinAlgError) \/
    exists F F', x = Ok (fm (a + m) (a + m) F) /\ y = Ok (fm (a + m) (a + m) F') /\
      forall i j, (i < a + m)%nat -> (j < a + m)%nat -> F' i j = F (sg i) (sg j).
  Proof.
    intros Ha Hm Hp Hn HR HR' HS Ht Hinj ER EG x y.
    assert (Hreg : forall i j, (i < a)%nat -> (j < a)%nat -> regularised a n Rm' i j = regularised a n Rm (sg i) (sg j)).
    { intros i j Hi Hj. unfold regularised. rewrite !ER by lia. destruct (Nat.eqb_spec i j) as [->|N].
      - now rewrite Nat.eqb_refl.
      - destruct (Nat.eqb_spec (sg i) (sg j)) as [Q|]; [|reflexivity]. exfalso. apply N. now apply (proj2 HS). }
    pose proof (invertible_perm a sg _ _ HS Hreg) as HI.
    destruct (sc_block_eq p Rm g n a m G Ha Hm Hp Hn HR) as [[E NI]|(H & I & EH & E)];
    destruct (sc_block_eq p Rm' g n a m G' Ha Hm Hp Hn HR') as [[E' NI']|(H' & I' & EH' & E')].
    - left. split; assumption.
    - exfalso. now apply NI, HI.
    - exfalso. now apply NI', HI.
    - right. exists (sc_G a m g Rm G H), (sc_G a m g Rm' G' H'). split; [exact E|]. split; [exact E'|].
      set (tau := fun u => (sg (a + u) - a)%nat).
      assert (Et : forall u, (u < m)%nat -> sg (a + u)%nat = (a + tau u)%nat) by (intros u Hu; specialize (Ht u Hu); unfold tau; lia).
      assert (Tb : forall u, (u < m)%nat -> (tau u < m)%nat) by (intros u Hu; specialize (Ht u Hu); unfold tau; lia).
      assert (HT : reorders m tau).
      { split; [exact Tb|]. intros u v Hu Hv Q. apply Hinj; auto. rewrite !Et by auto. congruence. }
      assert (HH : forall l v, (l < a)%nat -> (v < m)%nat -> H' l v = H (sg l) (tau v)).
      { apply (solve_unique a m (regularised a n Rm')); [exact I'|]. intros i v Hi Hv. rewrite EH' by auto. rewrite ER by lia.
        rewrite Et by auto. rewrite <- (EH (sg i) (tau v)) by (try apply (proj1 HS); auto).
        rewrite <- (rsum_perm a sg HS (fun l => regularised a n Rm (sg i) l * H l (tau v))). apply rsum_ext. intros l Hl. now rewrite Hreg by auto. }
      assert (HQ : meq m m (symm (sc_Q a Rm' H')) (congr m (Pm tau) (symm (sc_Q a Rm H)))).
      { assert (Q0 : forall u v, (u < m)%nat -> (v < m)%nat -> sc_Q a Rm' H' u v = sc_Q a Rm H (tau u) (tau v)).
        { intros u v Hu Hv. unfold sc_Q. rewrite ER, !Et by (auto; lia). f_equal.
          rewrite <- (rsum_perm a sg HS (fun l => Rm l (a + tau u)%nat * H l (tau v))). apply rsum_ext. intros l Hl.
          rewrite ER, HH, Et by (auto; lia). reflexivity. }
        intros u v Hu Hv. rewrite congr_Pm by auto. unfold symm. now rewrite !Q0 by auto. }
      pose proof (mpd_congr m (Pm tau) (Pm_similarity m tau HT) Hm L HL _ _ HQ) as HM.
      intros i j Hi Hj. unfold sc_G, glue.
      assert (Lw : forall u j, (u < m)%nat -> (j < a)%nat -> rsum a (fun l => g * H' l u * G' l j) = rsum a (fun l => g * H l (tau u) * G l (sg j))).
      { intros u w Hu Hw. rewrite <- (rsum_perm a sg HS (fun l => g * H l (tau u) * G l (sg w))). apply rsum_ext. intros l Hl. now rewrite HH, EG by auto. }
      assert (Sa : forall i, (i < a)%nat -> Nat.ltb (sg i) a = true) by (intros w Hw; apply Nat.ltb_lt; now apply (proj1 HS)).
      assert (Sb : forall i, (a <= i < a + m)%nat -> Nat.ltb (sg i) a = false /\ (sg i - a)%nat = tau (i - a)%nat).
      { intros w Hw. replace w with (a + (w - a))%nat at 1 2 by lia. rewrite Et by lia. split; [apply Nat.ltb_ge; lia|lia]. }
      destruct (Nat.ltb_spec i a) as [Li|Li]; destruct (Nat.ltb_spec j a) as [Lj|Lj].
      + rewrite !Sa by auto. auto.
      + rewrite Sa by auto. destruct (Sb j ltac:(lia)) as [-> ->]. apply Lw; lia.
      + rewrite (Sa j) by auto. destruct (Sb i ltac:(lia)) as [-> ->]. apply Lw; lia.
      + destruct (Sb i ltac:(lia)) as [-> ->]. destruct (Sb j ltac:(lia)) as [-> ->].
        set (u := (i - a)%nat) in *. set (v := (j - a)%nat) in *. assert (Hu : (u < m)%nat) by lia. assert (Hv : (v < m)%nat) by lia.
        rewrite ER, !Et, HM, congr_Pm by (auto; lia). f_equal.
        rewrite <- (rsum_perm a sg HS (fun l' => rsum a (fun l => g * H l (tau u) * G l l') * (g * H l' (tau v)))). apply rsum_ext. intros l Hl.
        now rewrite Lw, HH by auto.
  Qed.

  Section Perm.
    Context (p k : nat) (sg : nat -> nat) (Hk : (1 <= k <= p)%nat) (HS : reorders p sg) (HF : fixes_blocks p k sg).
    Lemma sg_start b i : (b <= k)%nat -> (i < p)%nat -> ((sg i < block_start p k b)%nat <-> (i < block_start p k b)%nat).
    Proof.
      intros Hb Hi. pose proof (proj1 HS i Hi) as Hs. pose proof (HF i Hi) as E.
      destruct (block_of_spec p k i ltac:(lia) Hi) as [A1 A2]. destruct (block_of_spec p k (sg i) ltac:(lia) Hs) as [B1 B2].
      rewrite E in B2. set (c := block_of p k i) in *.
      destruct (le_lt_dec b c) as [Q|Q].
      - pose proof (start_mono p k b c Q). lia.
      - pose proof (start_mono p k (S c) b ltac:(lia)). lia.
    Qed.
    Lemma reorders_start b : (b <= k)%nat -> reorders (block_start p k b) sg.
    Proof.
      intros Hb. pose proof (start_le_p p k b ltac:(lia) Hb) as Hp. split.
      - intros i Hi. apply sg_start; auto; lia.
      - intros i j Hi Hj. apply (proj2 HS); lia.
    Qed.
    Lemma sc_fold_perm g n Rm Rm' : 0 < n -> sym p Rm -> sym p Rm' -> (forall i j, (i < p)%nat -> (j < p)%nat -> Rm' i j = Rm (sg i) (sg j)) ->
      forall c b G G', (1 <= b)%nat -> (b + c = k)%nat ->
      (forall i j, (i < block_start p k b)%nat -> (j < block_start p k b)%nat -> G' i j = G (sg i) (sg j)) ->
      let x := foldM (sc_block L (fm p p Rm) (Fin g) (Fin n)) (fm (block_start p k b) (block_start p k b) G) (map (interval p k) (seq b c)) in
      let y := foldM (sc_block L (fm p p Rm') (Fin g) (Fin n)) (fm (block_start p k b) (block_start p k b) G') (map (interval p k) (seq b c)) in
      (x = Err LinAlgError /\ y = Err LinAlgError) \/
      exists F F', x = Ok (fm p p F) /\ y = Ok (fm p p F') /\ forall i j, (i < p)%nat -> (j < p)%nat -> F' i j = F (sg i) (sg j).
    Proof.
      intros Hn HR HR' ER. induction c as [|c IH]; intros b G G' Hb Hbc EG; cbv zeta.
      - right. cbn [seq map foldM]. replace b with k in * by lia. rewrite start_k in * by lia. exists G, G'. auto.
      - cbn [seq map foldM]. pose proof (start_lt p k b Hk) as Hlt.
        pose proof (start_lt p k 0 Hk) as H0l. rewrite start_0 in H0l. pose proof (start_mono p k 1 b Hb) as Hm1.
        pose proof (start_le_p p k (S b) ltac:(lia) ltac:(lia)) as Hle.
        pose proof (reorders_start b ltac:(lia)) as HRs. pose proof (sg_start b) as Sb. pose proof (sg_start (S b)) as Sb1.
        set (a := block_start p k b) in *. set (m := (block_start p k (S b) - a)%nat).
        assert (Es : block_start p k (S b) = (a + m)%nat) by (unfold m; lia). rewrite Es in *.
        assert (EI : interval p k b = (a, (a + m)%nat)) by (unfold interval, m; fold a; f_equal; lia). rewrite EI.
        destruct (sc_block_perm p Rm Rm' g n a m G G' sg ltac:(lia) ltac:(lia) ltac:(lia) Hn HR HR' HRs) as [[E1 E2]|(F & F' & E1 & E2 & EF)].
        + intros u Hu. split.
          * apply Nat.nlt_ge. intros Q. apply (Sb (a + u)%nat ltac:(lia) ltac:(lia)) in Q. lia.
          * apply (Sb1 (a + u)%nat ltac:(lia) ltac:(lia)). lia.
        + intros u v Hu Hv Q. apply (proj2 HS) in Q; lia.
        + intros i j Hi Hj. apply ER; lia.
        + exact EG.
        + left. rewrite E1, E2. auto.
        + rewrite E1, E2. cbn [bind]. rewrite <- Es. apply IH; try lia. rewrite Es. exact EF.
    Qed.
  End Perm.

  Lemma corr_of_perm C C' sg p : reorders p sg -> (forall i j, (i < p)%nat -> (j < p)%nat -> C' i j = C (sg i) (sg j)) ->
    forall i j, (i < p)%nat -> (j < p)%nat -> corr_of C' i j = corr_of C (sg i) (sg j).
  Proof. intros HS E i j Hi Hj. unfold corr_of. now rewrite !E by auto. Qed.
  Lemma gaussian_reliability_perm p k n sg Rm Rm' : reorders p sg -> keeps_blocks p k sg ->
    (forall i j, (i < p)%nat -> (j < p)%nat -> Rm' i j = Rm (sg i) (sg j)) ->
    gaussian_reliability p k n Rm' = gaussian_reliability p k n Rm.
  Proof.
    intros HS HK E. unfold gaussian_reliability.
    assert (E1 : cross_sum p k (fun i j => Rmax (Rm' i j ^ 2 - (1 + Rm' i j ^ 2) / n) 0) = cross_sum p k (fun i j => Rmax (Rm i j ^ 2 - (1 + Rm i j ^ 2) / n) 0)).
    { etransitivity; [|exact (cross_sum_perm p k sg (fun i j => Rmax (Rm i j ^ 2 - (1 + Rm i j ^ 2) / n) 0) HS HK)].
      apply cross_sum_ext. intros i j Hi Hj. now rewrite E by auto. }
    assert (E2 : cross_sum p k (fun i j => Rm' i j ^ 2) = cross_sum p k (fun i j => Rm i j ^ 2)).
    { etransitivity; [|exact (cross_sum_perm p k sg (fun i j => Rm i j ^ 2) HS HK)].
      apply cross_sum_ext. intros i j Hi Hj. now rewrite E by auto. }
    now rewrite E1, E2.
  Qed.
  Lemma sc_cov_perm p r nbk diff sg a a' : (1 <= p)%nat -> r <> 0 -> (forall i, (i < p)%nat -> 0 <= aC a i i) -> sym p (aC a) ->
    reorders p sg -> fixes_blocks p (blocks nbk p) sg -> an a' = an a ->
    (forall i j, (i < p)%nat -> (j < p)%nat -> aC a' i j = aC a (sg i) (sg j)) ->
    let x := sc_cov L (BLK r nbk diff) (ewa_d p r (burn_len r) a) in
    let y := sc_cov L (BLK r nbk diff) (ewa_d p r (burn_len r) a') in
    (x = Err LinAlgError /\ y = Err LinAlgError) \/
    exists S S', x = Ok (fm p p S) /\ y = Ok (fm p p S') /\ sym p S /\ sym p S' /\ forall i j, (i < p)%nat -> (j < p)%nat -> S' i j = S (sg i) (sg j).
  Proof.
    intros Hp Hr HC HSy HS HF En EC x y.
    assert (HC' : forall i, (i < p)%nat -> 0 <= aC a' i i) by (intros i Hi; rewrite EC by auto; apply HC; now apply (proj1 HS)).
    assert (HSy' : sym p (aC a')) by (intros i j Hi Hj; rewrite !EC by auto; apply HSy; now apply (proj1 HS)).
    unfold x, y, sc_cov. rewrite !sc_n_eff_fin by auto. unfold ewa_d, emp_d. rd. rewrite !fm_nrows, En.
    cbn [blk_n_blocks BLK]. rewrite slices_eq by auto. cbn [bind]. rewrite !cov_to_corrcoef_fin by auto. cbn [bind].
    fold (corr_of (aC a)). fold (corr_of (aC a')). set (n := effective_n r (an a)).
    assert (n2 : 2 <= n) by apply effective_n_ge. rewrite !sc_gamma_star_fin by (auto; lra). cbn [bind]. set (k := blocks nbk p) in *.
    pose proof (corr_of_perm _ _ sg p HS EC) as ER.
    rewrite (gaussian_reliability_perm p k n sg (corr_of (aC a)) (corr_of (aC a')) HS (fixes_keeps _ _ _ HF) ER).
    set (g := gaussian_reliability p k n (corr_of (aC a))).
    pose proof (blocks_range nbk p Hp) as Hk. fold k in Hk. destruct k as [|k'] eqn:Ek; [lia|]. rewrite <- Ek in *.
    replace (seq 0 k) with (0%nat :: seq 1 k') by (rewrite Ek; reflexivity). cbn [map].
    assert (EI : interval p k 0 = (0%nat, block_start p k 1)) by (unfold interval; now rewrite start_0). rewrite EI. clear EI.
    pose proof (start_le_p p k 1 ltac:(lia) ltac:(lia)) as H1p. rewrite !mslice_fin by lia. rewrite Nat.sub_0_r.
    change (fun i j => corr_of (aC a) (0 + i)%nat (0 + j)%nat) with (corr_of (aC a)).
    change (fun i j => corr_of (aC a') (0 + i)%nat (0 + j)%nat) with (corr_of (aC a')).
    destruct (sc_fold_perm p k sg Hk HS HF g n (corr_of (aC a)) (corr_of (aC a')) ltac:(lra) (corr_of_sym _ _ HSy) (corr_of_sym _ _ HSy') ER
      k' 1 (corr_of (aC a)) (corr_of (aC a')) (le_n 1) ltac:(lia)) as [[E1 E2]|(F & F' & E1 & E2 & EF)].
    - intros i j Hi Hj. apply ER; lia.
    - left. rewrite E1, E2. auto.
    - right. rewrite E1, E2. cbn [bind]. rewrite !to_symmetric_fin. cbn [bind]. fold (symm F). fold (symm F').
      destruct (mpd_ok L HL p (symm F) Hp) as [EM HM]. rewrite EM. destruct (mpd_ok L HL p (symm F') Hp) as [EM' HM']. rewrite EM'. cbn [bind].
      assert (FL : forall b, map (fun v : NumX => nsqrt (np_clip_lo v (nlit 1 12))) (diagonal (fm p p (aC b))) = fv p (floored_sd (aC b))).
      { intros b. rewrite diagonal_fin. apply map_fin. intros i Hi. rewrite lit12, np_clip_lo_fin, sqrt_fin; [reflexivity|].
        eapply Rle_trans; [apply Rlt_le, e12_pos|apply Rmax_r]. }
      rewrite !FL, !outer_fin, !mmul_fin. eexists _, _. split; [reflexivity|]. split; [reflexivity|].
      split; [intros i j Hi Hj; cbn beta; rewrite (proj1 HM i j Hi Hj); ring|]. split; [intros i j Hi Hj; cbn beta; rewrite (proj1 HM' i j Hi Hj); ring|].
      intros i j Hi Hj. cbn beta. unfold floored_sd. rewrite !EC by auto. f_equal.
      assert (EP : meq p p (symm F') (congr p (Pm sg) (symm F))).
      { intros u v Hu Hv. rewrite congr_Pm by (now apply (proj1 HS)). unfold symm. now rewrite !EF by auto. }
      rewrite (mpd_congr p (Pm sg) (Pm_similarity p sg HS) Hp L HL _ _ EP i j Hi Hj). apply congr_Pm; now apply (proj1 HS).
  Qed.
  Lemma sc_run_state p r nb diff rows xs : (1 <= p)%nat -> 0 < r <= 1 -> observes p diff rows xs -> xs <> [] ->
    let a := fold_left (ewa_step r (burn_len r)) xs a_init in
    exists o, partial_fit (new (C := SchurCond L) (BLK r nb diff)) (In2 rows) = (o, Ok tt) /\
      location_ o = Ok (fv p (ewa_mean r (burn_len r) xs)) /\
      sc_gamma_ L o = Ok (Fin (gaussian_reliability p (blocks nb p) (effective_n r (length xs)) (corr_of (ewa_cov r (burn_len r) xs)))) /\
      covariance_ o = (c <- sc_cov L (BLK r nb false) (ewa_d p r (burn_len r) a) ;; to_symmetric c) /\
      an a = length xs /\ (forall i j, aC a i j = ewa_cov r (burn_len r) xs i j).
  Proof.
    intros Hp Hr Ho Hx a. destruct (length_S xs Hx) as (n' & Hn').
    destruct (SchurCond_run L HL p r nb diff rows xs Hp Hr Ho Hx) as (o & E1 & _ & E3 & E4 & _).
    pose proof (ewa_fold r (burn_len r) xs) as F. cbv zeta in F. destruct F as (F1 & F2 & F3).
    destruct (run_reads_g (C := SchurCond L) (BLK r nb) (sc_pair L r nb) (ewa_d p r (burn_len r)) (ewa_step r (burn_len r)) p a_init)
      with (xs := xs) (diff := diff) (rows := rows) (n := n') as (o2 & R1 & Rs & R2 & R3 & R4 & R5 & R6); auto.
    - cbn [c_init SchurCond dict_class blk_r BLK]. apply ewa_init_fin. lra.
    - generalize a_init. clear. induction xs as [|x xs IH]; intros a; cbn [good]; auto. split; [|apply IH]. apply ewa_update_fin.
    - cbn. unfold dict_nsamples, ewa_d, emp_d. rd. now rewrite F1, Hn'.
    - assert (EO : o2 = o) by congruence. subst o2. exists o. split; [exact E1|]. split; [exact E3|]. split; [exact E4|]. split; [exact R4|]. split; [exact F1|].
      intros i j. apply F3.
  Qed.
End L.

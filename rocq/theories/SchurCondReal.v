(** * SchurConditionalCovariance on finite streams *)
From Coq Require Import Reals ZArith String List Lia Lra Arith Bool.
From Verif Require Import Num Numpy PyVal LinalgModel StateModel BaseModel Estimators Spec ListLemmas BaseProofs
  RMat LinSpec Fin RealSpec RunFin EwaReal RunAvg EmpFacts ShrinkReal Spectral MatAlg Contracts LinalgReal
  BlockSpec BlockGeom BlockReal BlockRun BlockRun2 SchurCondSpec.
Import ListNotations.
Local Open Scope string_scope.
Local Open Scope R_scope.

Definition glue (a : nat) (G Lw Cn : rmat) : rmat := fun i j =>
  if Nat.ltb i a then (if Nat.ltb j a then G i j else Lw (j - a)%nat i)
  else (if Nat.ltb j a then Lw (i - a)%nat j else Cn (i - a)%nat (j - a)%nat).
Lemma fv_app a m f g : (fv a f ++ fv m g)%list = fv (a + m) (fun i => if Nat.ltb i a then f i else g (i - a)%nat).
Proof.
  unfold fv. rewrite tab_app. f_equal.
  - apply tab_ext. intros i Hi. destruct (Nat.ltb_spec i a); [reflexivity|lia].
  - apply tab_ext. intros i Hi. destruct (Nat.ltb_spec (a + i) a); [lia|]. now replace (a + i - a)%nat with i by lia.
Qed.
Lemma grow_fin a m G Lw Cn :
  grow (N := NumX) (fm a a G) (fm a m (rT Lw)) (fm m a Lw) (fm m m Cn) = fm (a + m) (a + m) (glue a G Lw Cn).
Proof.
  unfold grow, fm, tab2. rewrite !zipw_tab. rewrite tab_app. f_equal.
  - apply tab_ext. intros i Hi. etransitivity; [exact (fv_app a m (G i) (rT Lw i))|]. apply fv_ext. intros j Hj. unfold glue, rT.
    destruct (Nat.ltb_spec i a); [reflexivity|lia].
  - apply tab_ext. intros i Hi. etransitivity; [exact (fv_app a m (Lw i) (Cn i))|]. apply fv_ext. intros j Hj. unfold glue.
    destruct (Nat.ltb_spec (a + i) a); [lia|]. now replace (a + i - a)%nat with i by lia.
Qed.
Lemma ridge_clip a n : 0 < n -> rclip (INR a / n) 0 (9 / 10) = ridge a n.
Proof.
  intros Hn. unfold rclip, ridge. rewrite Rmax_left; auto. apply Rmult_le_pos; [apply pos_INR|]. now apply Rlt_le, Rinv_0_lt_compat.
Qed.
Lemma ridge_range a n : (1 <= a)%nat -> 0 < n -> 0 < ridge a n <= 9 / 10.
Proof.
  intros Ha Hn. unfold ridge. split; [|apply Rmin_r]. apply Rmin_glb_lt; [|lra]. apply Rdiv_lt_0_compat; auto. apply lt_0_INR. lia.
Qed.
Lemma regularised_sym a n Rm m : sym m Rm -> sym m (regularised a n Rm).
Proof. intros H i j Hi Hj. unfold regularised. rewrite (Nat.eqb_sym j i). destruct (Nat.eqb_spec i j) as [->|]; auto. now rewrite H. Qed.

Section L.
  Context (L : LinAlg NumX) (HL : lawful L).

  Lemma sc_block_fin p Rm g n a m G : (1 <= a)%nat -> (1 <= m)%nat -> (a + m <= p)%nat -> 0 < n -> sym p Rm ->
    (sc_block L (fm p p Rm) (Fin g) (Fin n) (fm a a G) (a, (a + m)%nat) = Err LinAlgError /\ ~ invertible a (regularised a n Rm)) \/
    exists H S, (forall i v, (i < a)%nat -> (v < m)%nat -> rsum a (fun l => regularised a n Rm i l * H l v) = Rm i (a + v)%nat) /\
      pd_projection m (fun u v => Rm (a + u)%nat (a + v)%nat - rsum a (fun l => Rm l (a + u)%nat * H l v)) S /\
      sc_block L (fm p p Rm) (Fin g) (Fin n) (fm a a G) (a, (a + m)%nat) =
      Ok (fm (a + m) (a + m) (glue a G (fun u j => rsum a (fun l => g * H l u * G l j))
            (fun u v => (1 - g) * Rm (a + u)%nat (a + v)%nat + g * S u v +
              rsum a (fun l' => rsum a (fun l => g * H l u * G l l') * (g * H l' v))))).
  Proof.
    intros Ha Hm Hp Hn HR. unfold sc_block. cbn [fst snd].
    rewrite !mslice_fin by lia. rewrite !Nat.sub_0_r. replace (a + m - a)%nat with m by lia.
    rewrite diagonal_fin, nofn_fin, div_fin, nlit_fin, n0_fin, np_clip_fin by lra.
    replace (IZR 9 / IZR (10 ^ Z.of_nat 1)) with (9 / 10) by (cbn; lra). rewrite ridge_clip by auto.
    rewrite n1_fin, !sub_fin, !mscale_fin, mdiag_fin, mscale_fin, madd_fin. cbn [bind].
    rewrite meye_fin, nlit_fin, mscale_fin, madd_fin. cbn [bind].
    rewrite (fm_ext a a _ (regularised a n Rm)).
    2:{ intros i j Hi Hj. unfold regularised, rdiag, rI. cbn [plus]. destruct (Nat.eqb_spec i j) as [->|].
        - change (IZR (10 ^ Z.of_nat 10)) with 10000000000. lra.
        - ring. }
    assert (Hs : sym a (regularised a n Rm)) by (apply regularised_sym; intros i j Hi Hj; apply HR; lia).
    destruct (law_solve L HL a m (regularised a n Rm) (fun i j => Rm (0 + i)%nat (a + j)%nat) Ha Hs) as [(H & E & HI & HE)|[E HI]].
    - right. rewrite E. cbn [bind]. rewrite transpose_fin by auto. rewrite matmul_fin by auto. cbn [bind]. rewrite msub_fin. cbn [bind].
      rewrite to_symmetric_fin. cbn [bind].
      set (Q := fun u v => Rm (a + u)%nat (a + v)%nat - rmul a (rT (fun i j => Rm (0 + i)%nat (a + j)%nat)) H u v).
      destruct (mpd_ok L HL m (symm Q) Hm) as [EM _]. match goal with |- context [make_pos_def L (fm m m ?F)] => change F with (symm Q) end. rewrite EM. cbn [bind].
      rewrite !mscale_fin, madd_fin. cbn [bind]. rewrite transpose_fin by auto. rewrite matmul_fin by auto. cbn [bind]. rewrite matmul_fin by auto. cbn [bind].
      rewrite madd_fin. cbn [bind]. rewrite transpose_fin by auto.
      exists H, (mpd L m (symm Q)). split; [|split].
      + intros i v Hi Hv. exact (HE i v Hi Hv).
      + assert (PQ : pd_projection m (symm Q) (mpd L m (symm Q))) by now apply mpd_projection.
        destruct PQ as [P1 P2]. split; auto. intros C HC. specialize (P2 C HC).
        assert (SS : meq m m (symm (symm Q)) (symm Q)) by apply symm_id, symm_sym.
        change (fun u v => Rm (a + u)%nat (a + v)%nat - rsum a (fun l => Rm l (a + u)%nat * H l v)) with Q.
        rewrite (fro2_meq m (fun i j => mpd L m (symm Q) i j - symm Q i j) (fun i j => mpd L m (symm Q) i j - symm (symm Q) i j))
          by (intros i j Hi Hj; cbn beta; now rewrite SS by auto).
        rewrite (fro2_meq m (fun i j => C i j - symm Q i j) (fun i j => C i j - symm (symm Q) i j))
          by (intros i j Hi Hj; cbn beta; now rewrite SS by auto).
        exact P2.
      + rewrite grow_fin. f_equal.
    - left. rewrite E. split; [reflexivity|exact HI].
  Qed.

  Lemma glue_in a G Lw Cn i j : (i < a)%nat -> (j < a)%nat -> glue a G Lw Cn i j = G i j.
  Proof. intros Hi Hj. unfold glue. destruct (Nat.ltb_spec i a), (Nat.ltb_spec j a); auto; lia. Qed.
  Lemma conditional_block_ext p k g n Rm G G' b :
    meq (block_start p k (S b)) (block_start p k (S b)) G G' -> conditional_block p k g n Rm G b -> conditional_block p k g n Rm G' b.
  Proof.
    intros E (H & S & H1 & H2 & H3 & H4). pose proof (start_mono p k b (Datatypes.S b) ltac:(lia)) as Hm.
    exists H, S. set (a := block_start p k b) in *. set (c := block_start p k (Datatypes.S b)) in *. split; [exact H1|]. split; [exact H2|]. split.
    - intros u j Hu Hj. destruct (H3 u j Hu Hj) as [Q1 Q2]. rewrite <- !E by lia. split; [|exact Q2]. rewrite Q1.
      apply rsum_ext. intros l Hl. rewrite E by lia. reflexivity.
    - intros u v Hu Hv. rewrite <- E by lia. rewrite (H4 u v Hu Hv). f_equal. apply rsum_ext. intros l' Hl'. f_equal.
      apply rsum_ext. intros l Hl. rewrite E by lia. reflexivity.
  Qed.
  Lemma sc_fold p k g n Rm : (1 <= k <= p)%nat -> 0 < n -> sym p Rm ->
    forall c b G, (1 <= b)%nat -> (b + c = k)%nat ->
    (forall i j, (i < block_start p k 1)%nat -> (j < block_start p k 1)%nat -> G i j = Rm i j) ->
    (forall b', (1 <= b' < b)%nat -> conditional_block p k g n Rm G b') ->
    let r := foldM (sc_block L (fm p p Rm) (Fin g) (Fin n)) (fm (block_start p k b) (block_start p k b) G) (map (interval p k) (seq b c)) in
    (r = Err LinAlgError /\ exists b', (1 <= b' < k)%nat /\ ~ invertible (block_start p k b') (regularised (block_start p k b') n Rm)) \/
    exists G', r = Ok (fm p p G') /\ reassembled p k g n Rm G'.
  Proof.
    intros Hk Hn HR. induction c as [|c IH]; intros b G Hb Hbc H0 H1; cbv zeta.
    - right. exists G. cbn [seq map foldM]. replace b with k by lia. rewrite start_k by lia. split; [reflexivity|]. split; [exact H0|].
      intros b' Hb'. apply H1. lia.
    - cbn [seq map foldM]. pose proof (start_lt p k b Hk) as Hlt.
      pose proof (start_lt p k 0 Hk) as H0l. rewrite start_0 in H0l. pose proof (start_mono p k 1 b Hb) as Hm1.
      pose proof (start_le_p p k (S b) ltac:(lia) ltac:(lia)) as Hle.
      set (a := block_start p k b) in *. set (m := (block_start p k (S b) - a)%nat).
      replace (block_start p k (S b)) with (a + m)%nat in Hle by (unfold m; lia).
      assert (EI : interval p k b = (a, (a + m)%nat)) by (unfold interval, m; fold a; f_equal; lia). rewrite EI.
      destruct (sc_block_fin p Rm g n a m G ltac:(lia) ltac:(lia) ltac:(lia) Hn HR) as [[E HI]|(H & S_ & E1 & E2 & E)].
      + left. rewrite E. split; [reflexivity|]. exists b. split; [lia|exact HI].
      + rewrite E. cbn [bind]. set (G' := glue a G _ _).
        assert (Es : (a + m)%nat = block_start p k (S b)) by (unfold m; lia). rewrite Es.
        apply IH; try lia.
        * intros i j Hi Hj. unfold G'. rewrite glue_in by lia. auto.
        * intros b' Hb'. destruct (Nat.eq_dec b' b) as [->|Nb].
          -- exists H, S_. fold a. fold m. split; [exact E1|]. split; [exact E2|]. split.
             ++ intros u j Hu Hj. unfold G' at 1 3 4. unfold glue. destruct (Nat.ltb_spec (a + u) a); [lia|]. destruct (Nat.ltb_spec j a); [|lia].
                replace (a + u - a)%nat with u by lia. split; [|reflexivity]. apply rsum_ext. intros l Hl. unfold G'. now rewrite glue_in by lia.
             ++ intros u v Hu Hv. unfold G' at 1. unfold glue. destruct (Nat.ltb_spec (a + u) a); [lia|]. destruct (Nat.ltb_spec (a + v) a); [lia|].
                replace (a + u - a)%nat with u by lia. replace (a + v - a)%nat with v by lia. f_equal. apply rsum_ext. intros l' Hl'. f_equal.
                apply rsum_ext. intros l Hl. unfold G'. now rewrite glue_in by lia.
          -- apply (conditional_block_ext p k g n Rm G); [|apply H1; lia]. pose proof (start_mono p k (S b') b ltac:(lia)) as M. fold a in M.
             intros i j Hi Hj. unfold G'. rewrite glue_in by lia. reflexivity.
  Qed.

  Lemma corr_of_sym C n : sym n C -> sym n (corr_of C).
  Proof. intros H i j Hi Hj. unfold corr_of. now rewrite H, (Rmult_comm (C i i)) by auto. Qed.
  Lemma corr_of_ext C D n : meq n n C D -> meq n n (corr_of C) (corr_of D).
  Proof. intros H i j Hi Hj. unfold corr_of. now rewrite !H by auto. Qed.
  Lemma effective_n_ge r n : 2 <= effective_n r n.
  Proof. apply Rmax_l. Qed.
  Lemma no_cross p k : (1 <= k <= p)%nat ->
    (forall i j, (i < p)%nat -> (j < p)%nat -> negb (Nat.eqb (block_of p k i) (block_of p k j)) = false) <-> (k <= 1)%nat.
  Proof.
    intros Hk. split.
    - intros H. destruct (le_lt_dec k 1) as [|K]; auto. exfalso.
      pose proof (start_lt p k 0 Hk). pose proof (start_lt p k 1 Hk). pose proof (start_le_p p k 2 ltac:(lia) ltac:(lia)). rewrite start_0 in *.
      specialize (H 0%nat (block_start p k 1) ltac:(lia) ltac:(lia)).
      rewrite (block_of_in p k 0 0), (block_of_in p k 1 (block_start p k 1)) in H by (rewrite ?start_0; lia). discriminate.
    - intros K i j Hi Hj. pose proof (proj1 (block_of_spec p k i ltac:(lia) Hi)). pose proof (proj1 (block_of_spec p k j ltac:(lia) Hj)).
      replace (block_of p k i) with 0%nat by lia. replace (block_of p k j) with 0%nat by lia. reflexivity.
  Qed.
  Lemma sc_gamma_star_fin p nb n Rm : (1 <= p)%nat -> 0 < n ->
    sc_gamma_star (N := NumX) nb (fm p p Rm) (Fin n) = Ok (Fin (gaussian_reliability p (blocks nb p) n Rm)).
  Proof.
    intros Hp Hn. unfold sc_gamma_star. rewrite fm_nrows, block_id1_eq by auto. cbn [bind]. rewrite check_shape_fin. cbn [bind].
    set (k := blocks nb p). pose proof (blocks_range nb p Hp) as Hk. fold k in Hk.
    set (mk := cross_of _).
    assert (M1 : map (fun x : NumX => @np_clip_lo NumX (nsub (nsq x) (ndiv (nadd n1 (nsq x)) (Fin n))) n0) (masked p mk (fm p p Rm)) =
                 masked p mk (fm p p (fun i j => Rmax (Rm i j ^ 2 - (1 + Rm i j ^ 2) / n) 0))).
    { apply masked_map. intros i j Hi Hj. rewrite nsq_fin, n1_fin, add_fin, div_fin, sub_fin, n0_fin, np_clip_lo_fin by lra. do 3 f_equal; [ring|]. f_equal; ring. }
    assert (M2 : map (@nsq NumX) (masked p mk (fm p p Rm)) = masked p mk (fm p p (fun i j => Rm i j ^ 2))).
    { apply masked_map. intros; rewrite nsq_fin; f_equal; ring. }
    rewrite M1, M2. unfold mk. clear M1 M2 mk.
    rewrite !masked_vsum, !cross_msk. unfold gaussian_reliability. set (den := cross_sum p k (fun i j => Rm i j ^ 2)). set (num := cross_sum _ _ _).
    destruct (masked p (cross_of (tab p (block_of p k))) (fm p p Rm)) as [|x0 l0] eqn:Em.
    - pose proof (proj1 (masked_nil p _ (fm p p Rm)) Em) as Em2. destruct (Nat.leb_spec k 1) as [|K]; [reflexivity|]. exfalso. apply (Nat.lt_irrefl 1).
      eapply Nat.lt_le_trans; [exact K|]. apply (no_cross p k Hk). intros i j Hi Hj. rewrite <- cross_eq by auto. now apply Em2.
    - destruct (Nat.leb_spec k 1) as [K|K].
      + exfalso. assert (Z : masked p (cross_of (tab p (block_of p k))) (fm p p Rm) = []).
        { apply masked_nil. intros i j Hi Hj. rewrite cross_eq by auto. now apply (no_cross p k Hk). }
        rewrite Z in Em. discriminate.
      + rewrite n0_fin, ltb_fin. destruct (Rltb_spec 0 den), (Rlt_dec 0 den); try contradiction; auto.
        assert (D0 : den <> 0) by (apply Rgt_not_eq; assumption). rewrite py_div_fin by exact D0. cbn [bind]. now rewrite n1_fin, np_clip_fin.
  Qed.
  Lemma gaussian_reliability_range p k n Rm : 0 <= gaussian_reliability p k n Rm <= 1.
  Proof.
    unfold gaussian_reliability. destruct (Nat.leb k 1); [lra|]. destruct (Rlt_dec _ _); [|lra].
    apply (rclip_bounds (_ / _) 0 1). lra.
  Qed.
  Lemma gaussian_reliability_ext p k n A B : meq p p A B -> gaussian_reliability p k n A = gaussian_reliability p k n B.
  Proof.
    intros H. unfold gaussian_reliability.
    rewrite (cross_sum_ext p k (fun i j => Rmax (A i j ^ 2 - (1 + A i j ^ 2) / n) 0) (fun i j => Rmax (B i j ^ 2 - (1 + B i j ^ 2) / n) 0))
      by (intros i j Hi Hj; now rewrite H by auto).
    rewrite (cross_sum_ext p k (fun i j => A i j ^ 2) (fun i j => B i j ^ 2)) by (intros i j Hi Hj; now rewrite H by auto). reflexivity.
  Qed.

  Lemma sc_n_eff_fin p r nb a : r <> 0 -> sc_n_eff (ewa_d p r nb a) = Ok (Fin (effective_n r (an a)) : NumX).
  Proof.
    intros Hr. unfold sc_n_eff, ewa_d, emp_d. rd. rewrite nofZ_fin, sub_fin, py_div_fin by auto. cbn [bind].
    now rewrite nofn_fin, py_min_fin, py_max_fin.
  Qed.
  Lemma sc_gamma_fin p r nbk diff a : (1 <= p)%nat -> r <> 0 -> (forall i, (i < p)%nat -> 0 <= aC a i i) ->
    sc_gamma (BLK r nbk diff) (ewa_d p r (burn_len r) a) =
    Ok (Fin (gaussian_reliability p (blocks nbk p) (effective_n r (an a)) (corr_of (aC a)))).
  Proof.
    intros Hp Hr HC. unfold sc_gamma. rewrite sc_n_eff_fin by auto. unfold ewa_d, emp_d. rd.
    rewrite cov_to_corrcoef_fin by auto. cbn [bind blk_n_blocks BLK]. apply sc_gamma_star_fin; auto.
    pose proof (effective_n_ge r (an a)). lra.
  Qed.
  Lemma sc_cov_fin p r nbk diff a : (1 <= p)%nat -> r <> 0 -> (forall i, (i < p)%nat -> 0 <= aC a i i) -> sym p (aC a) ->
    let k := blocks nbk p in let n := effective_n r (an a) in let Rm := corr_of (aC a) in let g := gaussian_reliability p k n Rm in
    let c := sc_cov L (BLK r nbk diff) (ewa_d p r (burn_len r) a) in
    (c = Err LinAlgError /\ exists b, (1 <= b < k)%nat /\ ~ invertible (block_start p k b) (regularised (block_start p k b) n Rm)) \/
    exists G, reassembled p k g n Rm G /\
      c = Ok (fm p p (fun i j => mpd L p (symm G) i j * (floored_sd (aC a) i * floored_sd (aC a) j))).
  Proof.
    intros Hp Hr HC HS k n Rm g c. unfold c, sc_cov. rewrite sc_n_eff_fin by auto. unfold ewa_d, emp_d. rd. rewrite fm_nrows.
    cbn [blk_n_blocks BLK]. rewrite slices_eq by auto. cbn [bind]. rewrite cov_to_corrcoef_fin by auto. cbn [bind].
    fold (corr_of (aC a)). fold Rm. fold n.
    assert (n2 : 2 <= n) by apply effective_n_ge. rewrite sc_gamma_star_fin by (auto; lra). cbn [bind]. fold k. fold g.
    pose proof (blocks_range nbk p Hp) as Hk. fold k in Hk. destruct k as [|k'] eqn:Ek; [lia|]. rewrite <- Ek in *.
    replace (seq 0 k) with (0%nat :: seq 1 k') by (rewrite Ek; reflexivity). cbn [map].
    assert (EI : interval p k 0 = (0%nat, block_start p k 1)) by (unfold interval; now rewrite start_0). rewrite EI. clear EI. pose proof (start_le_p p k 1 ltac:(lia) ltac:(lia)) as H1p. rewrite mslice_fin by lia. rewrite Nat.sub_0_r.
    change (fun i j => Rm (0 + i)%nat (0 + j)%nat) with Rm.
    destruct (sc_fold p k g n Rm Hk ltac:(lra) (corr_of_sym _ _ HS) k' 1 Rm (le_n 1) ltac:(lia)) as [[E Hb]|(G & E & HG)].
    - auto.
    - intros; lia.
    - left. rewrite E. auto.
    - right. exists G. split; [exact HG|]. rewrite E. cbn [bind].
      rewrite to_symmetric_fin. cbn [bind]. fold (symm G). destruct (mpd_ok L HL p (symm G) Hp) as [EM _]. rewrite EM. cbn [bind].
      rewrite diagonal_fin, (map_fin p _ (floored_sd (aC a))).
      + rewrite outer_fin, mmul_fin. reflexivity.
      + intros i Hi. rewrite lit12, np_clip_lo_fin, sqrt_fin; [reflexivity|]. eapply Rle_trans; [apply Rlt_le, e12_pos|apply Rmax_r].
  Qed.

  Lemma reassembled_ext p k g n A B G : (1 <= k <= p)%nat -> meq p p A B -> reassembled p k g n A G -> reassembled p k g n B G.
  Proof.
    intros Hk E [H0 H1]. pose proof (start_le_p p k 1 ltac:(lia) ltac:(lia)) as Hp1. split.
    - intros i j Hi Hj. rewrite H0 by auto. apply E; lia.
    - intros b Hb. destruct (H1 b Hb) as (H & S_ & Q1 & Q2 & Q3 & Q4). exists H, S_.
      pose proof (start_le_p p k (S b) ltac:(lia) ltac:(lia)) as Hle. pose proof (start_lt p k b Hk) as Hlt.
      set (a := block_start p k b) in *. set (m := (block_start p k (S b) - a)%nat) in *.
      split; [|split; [|split]].
      + intros i v Hi Hv. rewrite <- E by (unfold m in *; lia). rewrite <- (Q1 i v Hi Hv). apply rsum_ext. intros l Hl. unfold regularised.
        now rewrite !E by lia.
      + assert (EE : meq m m (fun u v => A (a + u)%nat (a + v)%nat - rsum a (fun l => A l (a + u)%nat * H l v))
                              (fun u v => B (a + u)%nat (a + v)%nat - rsum a (fun l => B l (a + u)%nat * H l v))).
        { intros u v Hu Hv. rewrite E by (unfold m in *; lia). f_equal. apply rsum_ext. intros l Hl. now rewrite E by (unfold m in *; lia). }
        destruct Q2 as [P1 P2]. split; auto. intros C HC. specialize (P2 C HC). pose proof (symm_ext m _ _ EE) as SE.
        rewrite (fro2_meq m _ (fun i j => S_ i j - symm (fun u v => A (a + u)%nat (a + v)%nat - rsum a (fun l => A l (a + u)%nat * H l v)) i j)).
        rewrite (fro2_meq m (fun i j => C i j - _) (fun i j => C i j - symm (fun u v => A (a + u)%nat (a + v)%nat - rsum a (fun l => A l (a + u)%nat * H l v)) i j)).
        * exact P2.
        * intros i j Hi Hj. now rewrite SE by auto.
        * intros i j Hi Hj. now rewrite SE by auto.
      + exact Q3.
      + intros u v Hu Hv. rewrite <- E by (unfold m in *; lia). now apply Q4.
  Qed.
  Lemma sc_pair r nb : diff_pair (SchurCond L) (BLK r nb).
  Proof. split; [reflexivity|]. repeat split; intros; try reflexivity; try discriminate. Qed.
  Lemma floored_sd_pos C i : 0 < floored_sd C i.
  Proof. unfold floored_sd. apply sqrt_lt_R0. eapply Rlt_le_trans; [apply e12_pos|apply Rmax_r]. Qed.
  Lemma pd_congr_diag p B d : pd p B -> (forall i, (i < p)%nat -> d i <> 0) -> pd p (fun i j => B i j * (d i * d j)).
  Proof.
    intros [HS HB] Hd. split.
    - intros i j Hi Hj. rewrite (HS i j Hi Hj). ring.
    - intros v (i & Hi & Hv). replace (qf p (fun i j => B i j * (d i * d j)) v) with (qf p B (fun i => d i * v i)).
      + apply HB. exists i. split; [exact Hi|]. apply Rmult_integral_contrapositive. auto.
      + unfold qf. apply rsum_ext. intros a _. apply rsum_ext. intros; ring.
  Qed.
  Lemma SchurCond_run p r nb diff rows xs : (1 <= p)%nat -> 0 < r <= 1 -> observes p diff rows xs -> xs <> [] ->
    let k := blocks nb p in let C := ewa_cov r (burn_len r) xs in
    let n := effective_n r (length xs) in let Rm := corr_of C in let g := gaussian_reliability p k n Rm in
    exists o, partial_fit (new (C := SchurCond L) (BLK r nb diff)) (In2 rows) = (o, Ok tt) /\
      n_samples_ o = Ok (length xs) /\
      location_ o = Ok (fv p (ewa_mean r (burn_len r) xs)) /\
      sc_gamma_ L o = Ok (Fin g) /\
      ((covariance_ o = Err LinAlgError /\ exists b, (1 <= b < k)%nat /\ ~ invertible (block_start p k b) (regularised (block_start p k b) n Rm)) \/
       exists G, reassembled p k g n Rm G /\
        covariance_ o = Ok (fm p p (fun i j => mpd L p (symm G) i j * (floored_sd C i * floored_sd C j)))).
  Proof.
    intros Hp Hr Ho Hx k C n Rm g. destruct (length_S xs Hx) as (n' & Hn').
    assert (r0 : r <> 0) by lra.
    pose proof (ewa_fold r (burn_len r) xs) as F. cbv zeta in F.
    destruct (run_reads_g (C := SchurCond L) (BLK r nb) (sc_pair r nb) (ewa_d p r (burn_len r)) (ewa_step r (burn_len r)) p a_init)
      with (xs := xs) (diff := diff) (rows := rows) (n := n') as (o & R1 & Rs & R2 & R3 & R4 & R5 & R6); auto.
    - cbn [c_init SchurCond dict_class blk_r BLK]. now apply ewa_init_fin.
    - generalize a_init. clear. induction xs as [|x xs IH]; intros a; cbn [good]; auto. split; [|apply IH]. apply ewa_update_fin.
    - cbn. unfold dict_nsamples, ewa_d, emp_d. rd. now rewrite (proj1 F), Hn'.
    - set (st := fold_left (ewa_step r (burn_len r)) xs a_init) in *. destruct F as (F1 & F2 & F3).
      assert (EC : meq p p (aC st) C) by (intros i j _ _; apply F3).
      assert (PC : psd p C) by (apply psd_ewa_cov; lra).
      assert (D0 : forall i, (i < p)%nat -> 0 <= aC st i i) by (intros i Hi; rewrite EC by auto; now apply (psd_diag_nonneg p)).
      assert (ER : meq p p (corr_of (aC st)) Rm) by now apply corr_of_ext.
      assert (EG : gaussian_reliability p k n (corr_of (aC st)) = g) by now apply gaussian_reliability_ext.
      exists o. split; [exact R1|]. rewrite Hn'. split; [exact R2|]. split; [|split].
      + rewrite R3. cbn [c_mean SchurCond dict_class]. unfold dict_mean, ewa_d, emp_d. rd. f_equal. now apply fv_ext.
      + unfold sc_gamma_. rewrite (partial_fit_params _ _ _ _ R1). cbn [i_params new].
        unfold fitted_state. rewrite Rs. cbn [c_nsamples SchurCond dict_class]. unfold dict_nsamples.
        replace (getI "n_samples" (ewa_d p r (burn_len r) st)) with (Ok (an st)) by reflexivity. cbn [bind get_or].
        rewrite F1, Hn' at 1. cbn [Nat.ltb Nat.leb bind]. rewrite sc_gamma_fin by auto. rewrite F1. fold k. fold n. now rewrite EG.
      + rewrite R4. cbn [c_cov SchurCond dict_class].
        pose proof (sc_cov_fin p r nb false st Hp r0 D0) as K.
        assert (HS : sym p (aC st)) by (apply (sym_ext p C); [now apply meq_sym|apply PC]). specialize (K HS). cbv zeta in K.
        rewrite F1 in K. fold k in K. fold n in K. rewrite EG in K.
        assert (ERG : forall b, (b <= k)%nat -> meq (block_start p k b) (block_start p k b) (regularised (block_start p k b) n (corr_of (aC st))) (regularised (block_start p k b) n Rm)).
        { intros b Hb i j Hi Hj. pose proof (blocks_range nb p Hp) as Hk. fold k in Hk. pose proof (start_le_p p k b ltac:(lia) Hb).
          unfold regularised. now rewrite !ER by lia. }
        destruct K as [[E (b & Hb & HI)]|(G & HG & E)].
        * left. rewrite E. split; [reflexivity|]. exists b. split; auto. intros Q. apply HI.
          apply (invertible_ext _ (regularised (block_start p k b) n Rm)); auto. apply meq_sym. apply ERG. lia.
        * right. exists G. split.
          -- apply (reassembled_ext p k g n (corr_of (aC st))); auto. now apply blocks_range.
          -- rewrite E. cbn [bind]. rewrite to_symmetric_sym_fin.
             ++ f_equal. apply fm_ext. intros i j Hi Hj. unfold floored_sd. now rewrite !EC by auto.
             ++ intros i j Hi Hj. rewrite (mpd_sym L HL p (symm G) Hp i j Hi Hj). ring.
  Qed.
End L.

(** ** When the conditioning matrices are invertible *)
Section Reg.
  Context (p : nat) (C : rmat) (HC : psd p C) (n : R) (Hn : 2 <= n).
  Let dl : R := / (1 + n + INR p).
  Context (Hv : forall i, (i < p)%nat -> C i i = 0 \/ e12 * (1 + n + INR p) <= C i i).
  Let nz (i : nat) : R := if Req_EM_T (C i i) 0 then 0 else 1.
  Let w (v : nat -> R) (i : nat) : R := if Req_EM_T (C i i) 0 then 0 else v i / sqrt (C i i).
  Lemma dl_pos : 0 < dl.
  Proof. unfold dl. apply Rinv_0_lt_compat. pose proof (pos_INR p). lra. Qed.
  Lemma dl_1 : dl * (1 + n + INR p) = 1.
  Proof. unfold dl. apply Rinv_l. pose proof (pos_INR p). lra. Qed.
  Lemma entry_bound v i j : (i < p)%nat -> (j < p)%nat ->
    w v i * C i j * w v j - dl * ((nz i * Rabs (v i)) * (nz j * Rabs (v j))) <= v i * corr_of C i j * v j.
  Proof.
    intros Hi Hj. unfold w, nz, corr_of. pose proof (psd_cauchy p C i j HC Hi Hj) as K. pose proof dl_pos as Hd. pose proof e12_pos as He.
    assert (Z : C i i = 0 \/ C j j = 0 -> C i j = 0).
    { intros [E|E]; rewrite E in K; nra. }
    destruct (Req_EM_T (C i i) 0) as [E|Ni].
    { rewrite Z by auto. unfold Rdiv. rewrite !Rmult_0_l, !Rmult_0_r, !Rmult_0_l. lra. }
    destruct (Req_EM_T (C j j) 0) as [E|Nj].
    { rewrite Z by auto. unfold Rdiv. rewrite !Rmult_0_l, !Rmult_0_r, !Rmult_0_l. lra. }
    destruct (Hv i Hi) as [|Ci]; [contradiction|]. destruct (Hv j Hj) as [|Cj]; [contradiction|].
    set (T := e12 * (1 + n + INR p)) in *. assert (T0 : 0 < T) by (unfold T; pose proof (pos_INR p); nra).
    rewrite sqrt_mult by lra. set (si := sqrt (C i i)) in *. set (sj := sqrt (C j j)) in *.
    assert (Si : 0 < si) by (apply sqrt_lt_R0; lra). assert (Sj : 0 < sj) by (apply sqrt_lt_R0; lra).
    assert (Qi : si * si = C i i) by (apply sqrt_sqrt; lra). assert (Qj : sj * sj = C j j) by (apply sqrt_sqrt; lra).
    assert (SS : T <= si * sj).
    { assert (T * T <= (si * sj) * (si * sj)).
      { replace ((si * sj) * (si * sj)) with (C i i * C j j) by (rewrite <- Qi, <- Qj; ring). apply Rmult_le_compat; lra. }
      apply Rnot_lt_le. intros Q. assert (0 < si * sj) by nra. nra. }
    assert (AC : Rabs (C i j) <= si * sj).
    { apply Rsqr_incr_0_var; [|nra]. rewrite <- Rsqr_abs. unfold Rsqr. rewrite <- Qi, <- Qj in K. nra. }
    set (S := si * sj) in *. assert (S0 : 0 < S) by lra.
    assert (ED : dl * T = e12) by (unfold T; pose proof dl_1; nra).
    replace (v i / si * C i j * (v j / sj)) with (v i * v j * C i j / S) by (unfold S; field; lra).
    replace (v i * (C i j / (S + e12)) * v j) with (v i * v j * C i j / S - v i * v j * C i j * (e12 / (S * (S + e12)))) by (field; lra).
    assert (Q : v i * v j * C i j * (e12 / (S * (S + e12))) <= dl * (1 * Rabs (v i) * (1 * Rabs (v j)))); [|lra].
    assert (P0 : 0 <= e12 / (S * (S + e12))) by (apply Rlt_le, Rdiv_lt_0_compat; nra).
    eapply Rle_trans; [apply Rmult_le_compat_r; [exact P0|apply Rle_abs]|].
    rewrite !Rabs_mult. pose proof (Rabs_pos (v i)). pose proof (Rabs_pos (v j)).
    set (A := Rabs (v i) * Rabs (v j)) in *. assert (A0 : 0 <= A) by (unfold A; nra).
    eapply Rle_trans with (A * S * (e12 / (S * (S + e12)))).
    - apply Rmult_le_compat_r; [exact P0|]. apply Rmult_le_compat_l; auto.
    - replace (A * S * (e12 / (S * (S + e12)))) with (A * (e12 / (S + e12))) by (field; lra).
      replace (dl * (1 * Rabs (v i) * (1 * Rabs (v j)))) with (A * dl) by (unfold A; ring).
      apply Rmult_le_compat_l; auto. apply Rmult_le_reg_r with (S + e12); [lra|]. unfold Rdiv. rewrite Rmult_assoc, Rinv_l by lra. nra.
  Qed.
  Lemma diag_bound i v : (i < p)%nat -> nz i * (1 - dl) * v ^ 2 <= corr_of C i i * v ^ 2.
  Proof.
    intros Hi. unfold nz, corr_of. pose proof dl_pos. pose proof e12_pos. destruct (Req_EM_T (C i i) 0) as [E|Ni].
    - rewrite E. unfold Rdiv. rewrite !Rmult_0_l. lra.
    - destruct (Hv i Hi) as [|Ci]; [contradiction|]. set (T := e12 * (1 + n + INR p)) in *.
      assert (T0 : 0 < T) by (unfold T; pose proof (pos_INR p); nra). assert (ED : dl * T = e12) by (unfold T; pose proof dl_1; nra).
      rewrite sqrt_square by lra. apply Rmult_le_compat_r; [apply pow2_ge_0|].
      apply Rmult_le_reg_r with (C i i + e12); [lra|]. unfold Rdiv. rewrite Rmult_assoc, (Rmult_assoc (C i i)), Rinv_l by lra. nra.
  Qed.
  Lemma regularised_pd a : (1 <= a <= p)%nat -> pd a (regularised a n (corr_of C)).
  Proof.
    intros Ha. split.
    - apply regularised_sym. intros i j Hi Hj. apply (corr_of_sym C p); [apply HC|lia|lia].
    - intros v Hv0. set (Rm := corr_of C). set (lam := ridge a n).
      pose proof (ridge_range a n ltac:(lia) ltac:(lra)) as Hl. fold lam in Hl.
      assert (EQ : qf a (regularised a n Rm) v = (1 - lam) * qf a Rm v + lam * rsum a (fun i => Rm i i * v i ^ 2) + 1 / 10 ^ 10 * rdot a v v).
      { rewrite <- (qf_diag a (fun i => Rm i i)). rewrite <- qf_scal. rewrite <- qf_scal. rewrite <- qf_plus.
        replace (rdot a v v) with (qf a rI v).
        - rewrite <- qf_scal, <- qf_plus. apply qf_ext; auto. intros i j Hi Hj. unfold regularised, rdiag, rI. fold lam.
          destruct (Nat.eqb_spec i j) as [->|]; ring.
        - change rI with (rdiag (fun _ => 1)). rewrite qf_diag. apply rsum_ext. intros; ring. }
      rewrite EQ. pose proof (rdot_pos a v Hv0) as Hd.
      set (N2 := rsum a (fun i => (nz i * Rabs (v i)) * (nz i * Rabs (v i)))).
      assert (N20 : 0 <= N2) by (apply rsum_nonneg; intros; nra).
      assert (B1 : - (dl * (INR a * N2)) <= qf a Rm v).
      { assert (PW : 0 <= qf a C (w v)).
        { replace (qf a C (w v)) with (qf p C (fun i => if Nat.ltb i a then w v i else 0)); [apply HC|].
          unfold qf. replace p with (a + (p - a))%nat by lia. rewrite rsum_split.
          rewrite (rsum_zero (p - a)).
          - rewrite Rplus_0_r. apply rsum_ext. intros i Hi. rewrite rsum_split, (rsum_zero (p - a)).
            + rewrite Rplus_0_r. apply rsum_ext. intros j Hj. destruct (Nat.ltb_spec i a), (Nat.ltb_spec j a); try lia. reflexivity.
            + intros j Hj. destruct (Nat.ltb_spec (a + j) a); [lia|ring].
          - intros i Hi. apply rsum_zero. intros j Hj. destruct (Nat.ltb_spec (a + i) a); [lia|ring]. }
        assert (SB : (rsum a (fun i => nz i * Rabs (v i))) ^ 2 <= INR a * N2) by exact (sum_sq_bound a (fun i => nz i * Rabs (v i))).
        assert (LB : qf a C (w v) - dl * (rsum a (fun i => nz i * Rabs (v i))) ^ 2 <= qf a Rm v).
        { assert (SQ : rsum a (fun i => nz i * Rabs (v i)) ^ 2 = rsum a (fun i => rsum a (fun j => (nz i * Rabs (v i)) * (nz j * Rabs (v j))))).
          { rewrite <- prod_sum. ring. }
          rewrite SQ, <- rsum_scal. unfold qf. rewrite <- rsum_minus. apply rsum_le. intros i Hi. rewrite <- rsum_scal, <- rsum_minus.
          apply rsum_le. intros j Hj. apply entry_bound; lia. }
        apply Rmult_le_compat_l with (r := dl) in SB; [|apply Rlt_le, dl_pos]. lra. }
      assert (B2 : (1 - dl) * N2 <= rsum a (fun i => Rm i i * v i ^ 2)).
      { unfold N2. rewrite <- rsum_scal. apply rsum_le. intros i Hi. eapply Rle_trans; [|apply diag_bound; lia].
        assert (NN : nz i * nz i = nz i) by (unfold nz; destruct (Req_EM_T _ _); ring).
        assert (AA : Rabs (v i) * Rabs (v i) = v i ^ 2) by (rewrite <- Rabs_mult, Rabs_right; [ring|apply Rle_ge, Rle_0_sqr]).
        replace ((1 - dl) * (nz i * Rabs (v i) * (nz i * Rabs (v i)))) with ((1 - dl) * ((nz i * nz i) * (Rabs (v i) * Rabs (v i)))) by ring.
        rewrite NN, AA. lra. }
      assert (BR : 0 <= lam * (1 - dl) - (1 - lam) * (INR a * dl)).
      { pose proof dl_pos as D0. pose proof dl_1 as D1. assert (Hap : 1 <= INR a <= INR p) by (split; [change 1 with (INR 1)|]; apply le_INR; lia).
        unfold lam, ridge in *. unfold Rmin in *. destruct (Rle_dec (INR a / n) (9 / 10)) as [Q|Q].
        - assert (X : INR a = INR a / n * n) by (field; lra). set (x := INR a / n) in *. clearbody x. rewrite X.
          assert (P1 : 0 <= n * dl) by nra. assert (P2 : 0 <= INR p * dl) by nra.
          assert (P3 : 0 <= 1 - dl - (1 - x) * (n * dl)) by nra.
          replace (x * (1 - dl) - (1 - x) * (x * n * dl)) with (x * (1 - dl - (1 - x) * (n * dl))) by ring. apply Rmult_le_pos; lra.
        - assert (P1 : 0 <= n * dl) by nra. assert (P2 : INR a * dl <= INR p * dl) by (apply Rmult_le_compat_r; lra). assert (P3 : 0 <= INR p * dl) by nra. lra. }
      assert (0 < 1 / 10 ^ 10 * rdot a v v) by (apply Rmult_lt_0_compat; [lra|auto]).
      nra.
  Qed.
End Reg.

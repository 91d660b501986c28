(** * BlockCovariance on finite streams *)
From Coq Require Import Reals ZArith String List Lia Lra Arith Bool.
From Verif Require Import Num Numpy PyVal LinalgModel StateModel BaseModel Estimators Spec ListLemmas BaseProofs
  RMat LinSpec Fin RealSpec RunFin EwaReal RunAvg EmpFacts ShrinkReal Spectral MatAlg Contracts LinalgReal BlockSpec BlockGeom BlockReal BlockRun.
Import ListNotations.
Local Open Scope string_scope.
Local Open Scope R_scope.

Lemma zipM_map {A B C D} (f : A -> B -> res C) (g : D -> A) (h : D -> B) (e : D -> C) l :
  (forall d, In d l -> f (g d) (h d) = Ok (e d)) -> zipM f (map g l) (map h l) = Ok (map e l).
Proof.
  induction l as [|d l IH]; intros H; [reflexivity|]. cbn [map zipM]. rewrite (H d) by (simpl; auto). cbn [bind].
  rewrite IH by (intros; apply H; simpl; auto). reflexivity.
Qed.
Lemma in_block_eq p k b i : (b < k)%nat -> (i < p)%nat -> in_block (interval p k b) i = Nat.eqb (block_of p k i) b.
Proof.
  intros Hb Hi. unfold in_block, interval. cbn [fst snd]. destruct (Nat.eqb_spec (block_of p k i) b) as [<-|N].
  - destruct (block_of_spec p k i ltac:(lia) Hi) as [_ H]. apply andb_true_intro. split; [now apply Nat.leb_le|now apply Nat.ltb_lt].
  - apply not_true_is_false. intros H. apply andb_prop in H. destruct H as [H1 H2]. apply Nat.leb_le in H1. apply Nat.ltb_lt in H2.
    apply N. now apply block_of_in.
Qed.
Lemma block_entry_seq {N : Num} p k (M : nat -> mat N) i j n b0 : (b0 + n <= k)%nat -> (i < p)%nat -> (j < p)%nat ->
  block_entry (map (fun b => (interval p k b, M b)) (seq b0 n)) i j =
  if Nat.eqb (block_of p k i) (block_of p k j) && (Nat.leb b0 (block_of p k i) && Nat.ltb (block_of p k i) (b0 + n))
  then mget (M (block_of p k i)) (pos p k i) (pos p k j) else n0.
Proof.
  intros Hn Hi Hj. revert b0 Hn. induction n as [|n IH]; intros b0 Hn.
  - cbn [seq map block_entry]. destruct (Nat.leb_spec b0 (block_of p k i)), (Nat.ltb_spec (block_of p k i) (b0 + 0)); try lia; now rewrite ?andb_false_r.
  - cbn [seq map block_entry]. rewrite !in_block_eq by lia. rewrite IH by lia. replace (b0 + S n)%nat with (S b0 + n)%nat by lia.
    destruct (Nat.eqb_spec (block_of p k i) b0) as [E|E], (Nat.eqb_spec (block_of p k j) b0) as [F|F]; cbn [andb].
    + unfold pos. rewrite F, E, Nat.eqb_refl. cbn [andb]. replace (Nat.leb b0 b0) with true by (symmetry; apply Nat.leb_le; lia).
      replace (Nat.ltb b0 (S b0 + n)) with true by (symmetry; apply Nat.ltb_lt; lia). reflexivity.
    + destruct (Nat.eqb_spec (block_of p k i) (block_of p k j)); [congruence|reflexivity].
    + destruct (Nat.eqb_spec (block_of p k i) (block_of p k j)); [congruence|reflexivity].
    + replace (Nat.leb (S b0) (block_of p k i)) with (Nat.leb b0 (block_of p k i)); [reflexivity|].
      destruct (Nat.leb_spec b0 (block_of p k i)), (Nat.leb_spec (S b0) (block_of p k i)); auto; lia.
Qed.
Lemma block_ventry_seq {N : Num} p k (M : nat -> vec N) i n b0 : (b0 + n <= k)%nat -> (i < p)%nat ->
  block_ventry (map (fun b => (interval p k b, M b)) (seq b0 n)) i =
  if Nat.leb b0 (block_of p k i) && Nat.ltb (block_of p k i) (b0 + n) then vget (M (block_of p k i)) (pos p k i) else n0.
Proof.
  intros Hn Hi. revert b0 Hn. induction n as [|n IH]; intros b0 Hn.
  - cbn [seq map block_ventry]. destruct (Nat.leb_spec b0 (block_of p k i)), (Nat.ltb_spec (block_of p k i) (b0 + 0)); try lia; reflexivity.
  - cbn [seq map block_ventry]. rewrite !in_block_eq by lia. rewrite IH by lia. replace (b0 + S n)%nat with (S b0 + n)%nat by lia.
    destruct (Nat.eqb_spec (block_of p k i) b0) as [E|E].
    + unfold pos. rewrite E. replace (Nat.leb b0 b0) with true by (symmetry; apply Nat.leb_le; lia).
      replace (Nat.ltb b0 (S b0 + n)) with true by (symmetry; apply Nat.ltb_lt; lia). reflexivity.
    + replace (Nat.leb (S b0) (block_of p k i)) with (Nat.leb b0 (block_of p k i)); [reflexivity|].
      destruct (Nat.leb_spec b0 (block_of p k i)), (Nat.leb_spec (S b0) (block_of p k i)); auto; lia.
Qed.
Lemma forallb_map {A B} (f : B -> bool) (g : A -> B) l : (forall a, In a l -> f (g a) = true) -> forallb f (map g l) = true.
Proof. induction l; intros H; auto. cbn [map forallb]. rewrite H by (simpl; auto). apply IHl. intros. apply H. simpl; auto. Qed.
Lemma assemble_fin p k (M : nat -> rmat) : k <> O ->
  assemble (N := NumX) p (map (fun b => (interval p k b, fm (size p k b) (size p k b) (M b))) (seq 0 k)) = Ok (fm p p (assemble_ p k M)).
Proof.
  intros Hk. unfold assemble. rewrite forallb_map.
  - f_equal. apply tab2_ext. intros i j Hi Hj. rewrite (block_entry_seq p k (fun b => fm (size p k b) (size p k b) (M b))) by auto. unfold assemble_.
    destruct (block_of_spec p k i Hk Hi) as [Bi _]. cbn [Nat.add].
    replace (Nat.ltb (block_of p k i) k) with true by (symmetry; now apply Nat.ltb_lt). cbn [Nat.leb]. rewrite !andb_true_r.
    destruct (Nat.eqb_spec (block_of p k i) (block_of p k j)) as [E|]; [|reflexivity].
    apply fm_get; [now apply pos_spec|]. rewrite E. now apply pos_spec.
  - intros b Hb. unfold block_ok, interval. cbn [fst snd]. change (block_start p k (S b) - block_start p k b)%nat with (size p k b).
    rewrite fm_nrows, Nat.eqb_refl. cbn [andb]. apply forallb_forall. intros row Hr. apply Nat.eqb_eq.
    destruct (fm_mat (size p k b) (size p k b) (M b)) as [_ F]. rewrite Forall_forall in F. now apply F.
Qed.

Definition shift (s : nat) (a : ast) : ast := mkA (an a) (fun i => am a (s + i)%nat) (fun i j => aC a (s + i)%nat (s + j)%nat).
Lemma shift_step r nb s a x : ewa_step r nb (shift s a) (fun i => x (s + i)%nat) = shift s (ewa_step r nb a x).
Proof. unfold ewa_step. cbn [an shift]. destruct (Nat.ltb (an a) nb); reflexivity. Qed.
Definition blk_e (p k : nat) (r : R) (nb : nat) (a : ast) : blk_state (N := NumX) :=
  mkBlk p (an a) (Fin r : NumX) nb (map (interval p k) (seq 0 k)) (map (fun b => ewa_d (size p k b) r nb (shift (block_start p k b) a)) (seq 0 k)).
Lemma blk_init_fin p r nb diff : (1 <= p)%nat -> r <> 0 ->
  blk_init (N := NumX) (BLK r nb diff) p = Ok (blk_e p (blocks nb p) r (burn_len r) a_init).
Proof.
  intros Hp Hr. unfold blk_init. cbn [blk_n_blocks blk_r BLK]. rewrite slices_eq by auto. cbn [bind]. rewrite burn_fin by auto. cbn [bind].
  set (k := blocks nb p). unfold blk_e.
  assert (E : forall l, mapM (fun ab => ewa_init (N := NumX) (snd ab - fst ab) (Fin r)) (map (interval p k) l) =
              Ok (map (fun b => ewa_d (size p k b) r (burn_len r) (shift (block_start p k b) a_init)) l)).
  { induction l as [|b l IH]; [reflexivity|]. cbn [map mapM]. cbn [interval fst snd].
    change (block_start p k (S b) - block_start p k b)%nat with (size p k b). rewrite ewa_init_fin by auto. cbn [bind]. rewrite IH. reflexivity. }
  rewrite E. reflexivity.
Qed.
Lemma blk_update_fin p k r nb a x : k <> O ->
  blk_update (blk_e p k r nb a) (fv p x) = Ok (blk_e p k r nb (ewa_step r nb a x)).
Proof.
  intros Hk. unfold blk_update. cbn [b_subs b_slices b_dim b_n b_r b_burn blk_e].
  rewrite (zipM_map _ _ _ (fun b => ewa_d (size p k b) r nb (shift (block_start p k b) (ewa_step r nb a x)))).
  - cbn [bind]. unfold blk_e. repeat f_equal. unfold ewa_step. destruct (Nat.ltb _ _); reflexivity.
  - intros b Hb. apply in_seq in Hb. cbn [interval fst snd].
    rewrite slice_fin; [|apply start_mono; lia|apply start_le_p; lia]. fold (size p k b). rewrite ewa_update_fin. now rewrite shift_step.
Qed.
Lemma blk_mean_fin p k r nb a : k <> O -> blk_mean (blk_e p k r nb a) = Ok (fv p (am a)).
Proof.
  intros Hk. unfold blk_mean. cbn [b_subs b_slices b_dim blk_e].
  rewrite (zipM_map _ _ _ (fun b => (interval p k b, fv (size p k b) (fun i => am a (block_start p k b + i)%nat)))).
  - cbn [bind]. rewrite forallb_map.
    + f_equal. apply tab_ext. intros i Hi. rewrite (block_ventry_seq p k (fun b => fv (size p k b) (fun i => am a (block_start p k b + i)%nat))) by auto.
      destruct (block_of_spec p k i Hk Hi) as [Bi _]. cbn [Nat.add Nat.leb andb].
      replace (Nat.ltb (block_of p k i) k) with true by (symmetry; now apply Nat.ltb_lt).
      destruct (pos_spec p k i Hk Hi) as [P1 P2]. rewrite fv_get by auto. now rewrite <- P2.
    + intros b Hb. cbn [interval fst snd]. rewrite fv_length. apply Nat.eqb_refl.
  - intros b Hb. unfold ewa_d, emp_d. rd. reflexivity.
Qed.

Section L.
  Context (L : LinAlg NumX) (HL : lawful L).
  Lemma pd_block_fin n r nb a : (1 <= n)%nat -> pd_block L (ewa_d n r nb a) = Ok (fm n n (mpd L n (symm (aC a)))).
  Proof. intros Hn. unfold pd_block, ewa_d, emp_d. rd. rewrite to_symmetric_fin. cbn [bind]. now apply mpd_ok. Qed.
  Lemma size_pos p k b : (1 <= k <= p)%nat -> (1 <= size p k b)%nat.
  Proof. intros Hk. pose proof (start_lt p k b Hk). unfold size. lia. Qed.
  Lemma sub_damped p k b A : (b < k)%nat -> meq (size p k b) (size p k b) (sub p k b (damped p k 0 A)) (sub p k b A).
  Proof.
    intros Hb u v Hu Hv. unfold sub, damped. destruct (pos_at p k b u Hb Hu) as [-> _]. destruct (pos_at p k b v Hb Hv) as [-> _].
    now rewrite Nat.eqb_refl.
  Qed.
  Lemma blk_cov_fin p k r nb a : (1 <= k <= p)%nat -> sym p (aC a) ->
    blk_cov L (blk_e p k r nb a) = Ok (fm p p (mpd L p (damped p k 0 (aC a)))).
  Proof.
    intros Hk HS. assert (k0 : k <> O) by lia. unfold blk_cov. cbn [b_subs b_slices b_dim blk_e].
    rewrite (zipM_map _ _ _ (fun b => (interval p k b, fm (size p k b) (size p k b) (mpd L (size p k b) (sub p k b (damped p k 0 (aC a))))))).
    - cbn [bind]. rewrite assemble_fin by auto. f_equal. apply fm_meq. apply meq_sym. apply (mpd_blocks L HL); auto. apply damped_0.
    - intros b Hb. apply in_seq in Hb. rewrite pd_block_fin by (now apply size_pos). cbn [bind]. do 3 f_equal. apply mpd_ext.
      eapply meq_trans; [|apply meq_sym, sub_damped; lia]. apply symm_id. intros u v Hu Hv. unfold shift, sub. cbn [aC].
      pose proof (start_le_p p k (S b) k0 ltac:(lia)). pose proof (start_mono p k b (S b) ltac:(lia)). apply HS; unfold size in *; lia.
  Qed.
  Lemma blk_prec_fin p k r nb a : (1 <= k <= p)%nat -> sym p (aC a) ->
    exists B, blk_prec L (blk_e p k r nb a) = Ok (fm p p B) /\ inverse p (mpd L p (damped p k 0 (aC a))) B /\ block_diagonal p k B.
  Proof.
    intros Hk HS. assert (k0 : k <> O) by lia.
    set (M := fun b => mpd L (size p k b) (sub p k b (damped p k 0 (aC a)))).
    set (V := fun b => mres (la_inv L (fm (size p k b) (size p k b) (M b)))).
    assert (HV : forall b, (b < k)%nat -> la_inv L (fm (size p k b) (size p k b) (M b)) = Ok (fm (size p k b) (size p k b) (V b)) /\ inverse (size p k b) (M b) (V b)).
    { intros b Hb. pose proof (size_pos p k b Hk) as Hs. destruct (mpd_ok L HL (size p k b) (sub p k b (damped p k 0 (aC a))) Hs) as [_ BB].
      fold (M b) in BB. destruct (law_inv L HL (size p k b) (M b) Hs (proj1 BB)) as [(B & E & HB)|[_ N]].
      - destruct (mres_ok _ _ _ B E) as [E1 E2]. split; [exact E1|]. apply (inverse_ext _ (M b) (M b) B); auto; [apply meq_refl|now apply meq_sym].
      - exfalso. apply N, pd_invertible. apply (bb_pd _ e8); auto using e8_pos. }
    exists (assemble_ p k V). split; [|split].
    - unfold blk_prec. cbn [b_subs b_slices b_dim blk_e].
      rewrite (zipM_map _ _ _ (fun b => (interval p k b, fm (size p k b) (size p k b) (V b)))).
      + cbn [bind]. now apply assemble_fin.
      + intros b Hb. apply in_seq in Hb. rewrite pd_block_fin by (now apply size_pos). cbn [bind].
        replace (mpd L (size p k b) (symm (aC (shift (block_start p k b) a)))) with (M b).
        { destruct (HV b ltac:(lia)) as [-> _]. reflexivity. }
        apply mpd_ext. eapply meq_trans; [apply sub_damped; lia|]. apply meq_sym, symm_id. intros u v Hu Hv. unfold shift. cbn [aC].
        pose proof (start_le_p p k (S b) k0 ltac:(lia)). pose proof (start_mono p k b (S b) ltac:(lia)). apply HS; unfold size in *; lia.
    - assert (E : meq p p (mpd L p (damped p k 0 (aC a))) (assemble_ p k M)) by (apply (mpd_blocks L HL); auto; apply damped_0).
      apply (inverse_ext p (assemble_ p k M) _ (assemble_ p k V)); [now apply meq_sym|apply meq_refl|]. split.
      + eapply meq_trans; [apply assemble_mul; auto|]. eapply meq_trans; [|apply (assemble_I p k); auto].
        apply assemble_ext; auto. intros b Hb. apply HV; auto.
      + eapply meq_trans; [apply assemble_mul; auto|]. eapply meq_trans; [|apply (assemble_I p k); auto].
        apply assemble_ext; auto. intros b Hb. apply HV; auto.
    - intros i j Hi Hj N. unfold assemble_. destruct (Nat.eqb_spec (block_of p k i) (block_of p k j)); [contradiction|reflexivity].
  Qed.
  Lemma blk_pair r nb : diff_pair (Block L) (BLK r nb).
  Proof. split; [reflexivity|]. repeat split; intros; try reflexivity; try discriminate. cbn in H. injection H as <-. reflexivity. Qed.
  Lemma Block_run p r nb diff rows xs : (1 <= p)%nat -> r <> 0 -> observes p diff rows xs -> xs <> [] ->
    let k := blocks nb p in
    let C := ewa_cov r (burn_len r) xs in
    exists o B, partial_fit (new (C := Block L) (BLK r nb diff)) (In2 rows) = (o, Ok tt) /\
      i_state o = Some (blk_e p k r (burn_len r) (fold_left (ewa_step r (burn_len r)) xs a_init)) /\
      n_samples_ o = Ok (length xs) /\
      location_ o = Ok (fv p (ewa_mean r (burn_len r) xs)) /\
      covariance_ o = Ok (fm p p (mpd L p (damped p k 0 C))) /\
      (forall L', precision_ L' o = Ok (fm p p B)) /\
      inverse p (mpd L p (damped p k 0 C)) B /\ block_diagonal p k B.
  Proof.
    intros Hp Hr Ho Hx k C. destruct (length_S xs Hx) as (n & Hn). pose proof (blocks_range nb p Hp) as Hk. fold k in Hk. assert (k0 : k <> O) by lia.
    pose proof (ewa_fold r (burn_len r) xs) as F. cbv zeta in F. destruct F as (F1 & F2 & F3).
    destruct (run_reads_g (C := Block L) (BLK r nb) (blk_pair r nb) (blk_e p k r (burn_len r)) (ewa_step r (burn_len r)) p a_init)
      with (xs := xs) (diff := diff) (rows := rows) (n := n) as (o & R1 & Rs & R2 & R3 & R4 & R5 & R6); auto.
    - cbn [c_init Block]. now apply blk_init_fin.
    - clear - k0. generalize a_init. induction xs as [|x xs IH]; intros a; cbn [good]; auto.
      split; [|apply IH]. cbn [c_update Block]. now apply blk_update_fin.
    - cbn. now rewrite F1, Hn.
    - set (st := fold_left (ewa_step r (burn_len r)) xs a_init) in *.
      assert (EC : meq p p (aC st) C) by (intros i j _ _; apply F3).
      assert (HS : sym p (aC st)) by (apply (sym_ext p C); [now apply meq_sym|apply sym_ewa_cov]).
      assert (EM : mpd L p (damped p k 0 (aC st)) = mpd L p (damped p k 0 C)) by (apply mpd_ext, damped_ext; exact EC).
      destruct (blk_prec_fin p k r (burn_len r) st Hk HS) as (B & E & HI & HB). rewrite EM in HI.
      exists o, B. split; [exact R1|]. split; [exact Rs|]. rewrite Hn. split; [exact R2|]. split; [|split; [|split]].
      + rewrite R3. cbn [c_mean Block]. rewrite blk_mean_fin by auto. f_equal. now apply fv_ext.
      + rewrite R4. cbn [c_cov Block]. rewrite blk_cov_fin by auto. cbn [bind]. rewrite EM.
        apply to_symmetric_sym_fin. now apply (mpd_sym L HL).
      + intros L'. destruct (R6 L') as (_ & _ & _ & _ & -> & _). unfold precision_, fitted_state. cbn [i_state i_params c_prec Block c_nsamples].
        cbn [b_n blk_e]. rewrite F1, Hn. cbn [bind Nat.ltb Nat.leb]. exact E.
      + auto.
  Qed.
End L.

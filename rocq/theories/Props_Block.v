(** * C43-C46: SchurCovariance, BlockCovariance, SchurLedoitWolfCovariance

    Exact arithmetic, every lawful LAPACK (Contracts.v).  Vocabulary: BlockSpec.v. *)
From Coq Require Import Reals ZArith String List Lia Lra Arith Bool.
From Verif Require Import Num Numpy PyVal LinalgModel StateModel BaseModel Estimators Spec ListLemmas BaseProofs
  RMat LinSpec Fin RealSpec RunFin EwaReal RunAvg EmpFacts ShrinkReal Spectral MatAlg Contracts LinalgReal
  BlockSpec BlockGeom BlockReal BlockRun BlockRun2 Props_Emp.
Import ListNotations.
Local Open Scope string_scope.
Local Open Scope R_scope.

(** ** C44 *)
(** Every variable lies in exactly one block; the blocks are consecutive intervals that start at 0 and end
    at p, are not empty, and their sizes are p/k or p/k + 1. *)
Theorem C44_blocks_partition n_blocks p : (1 <= p)%nat ->
  let k := blocks n_blocks p in
  (1 <= k <= p)%nat /\ block_start p k 0 = 0%nat /\ block_start p k k = p /\
  (forall i, (i < p)%nat -> exists! b, (b < k)%nat /\ (block_start p k b <= i < block_start p k (S b))%nat) /\
  (forall b, (b < k)%nat -> let s := (block_start p k (S b) - block_start p k b)%nat in
     (1 <= s)%nat /\ (s = p / k \/ s = S (p / k))%nat) /\
  (forall i, (i < p)%nat -> (block_of p k i < k)%nat /\ (block_start p k (block_of p k i) <= i < block_start p k (S (block_of p k i)))%nat).
Proof.
  intros Hp k. pose proof (blocks_range n_blocks p Hp) as Hk. fold k in Hk. assert (k0 : k <> O) by lia.
  split; [exact Hk|]. split; [apply start_0|]. split; [now apply start_k|]. split; [|split].
  - intros i Hi. exists (block_of p k i). split; [now apply block_of_spec|]. intros b [Hb H]. now apply block_of_in.
  - intros b Hb. cbv zeta. pose proof (start_lt p k b Hk). split; [lia|]. rewrite start_S. destruct (Nat.ltb b (p mod k)); lia.
  - intros i Hi. now apply block_of_spec.
Qed.
(** BlockCovariance reports these intervals in its state. *)
Theorem C44_reported_slices L p r n_blocks diff rows xs : lawful L -> (1 <= p)%nat -> r <> 0 -> observes p diff rows xs -> xs <> [] ->
  let k := blocks n_blocks p in
  exists (o : inst (Block L)) d, fitted_on (C := Block L) (BLK r n_blocks diff) rows o /\ get_state o = Ok (Some d) /\
    dget "slices" d = Some (JList (map (fun b => JList [JInt (block_start p k b); JInt (block_start p k (S b))]) (seq 0 k))).
Proof.
  intros HL Hp Hr Ho Hx k. destruct (Block_run L HL p r n_blocks diff rows xs Hp Hr Ho Hx) as (o & B & E1 & Es & _). fold k in Es.
  exists o. unfold get_state. rewrite Es. cbn [c_get Block]. unfold blk_get. cbn [b_subs b_dim b_n b_r b_burn b_slices blk_e].
  set (a := fold_left _ _ _).
  assert (M1 : forall l, mapM (fun sub => m <- getV "mean" sub ;; Ok (tolist (A1 m)))
       (map (fun b => ewa_d (size p k b) r (burn_len r) (shift (block_start p k b) a)) l) =
       Ok (map (fun b => tolist (A1 (fv (size p k b) (am (shift (block_start p k b) a))))) l)).
  { induction l as [|b l IH]; [reflexivity|]. cbn [map mapM]. rewrite IH. reflexivity. }
  assert (M2 : forall l, mapM (fun sub => c <- getM "cov" sub ;; Ok (tolist (A2 c)))
       (map (fun b => ewa_d (size p k b) r (burn_len r) (shift (block_start p k b) a)) l) =
       Ok (map (fun b => tolist (A2 (fm (size p k b) (size p k b) (aC (shift (block_start p k b) a))))) l)).
  { induction l as [|b l IH]; [reflexivity|]. cbn [map mapM]. rewrite IH. reflexivity. }
  rewrite M1, M2. cbn [bind]. eexists. split; [exact E1|]. split; [reflexivity|]. cbn [dget String.eqb Ascii.eqb Bool.eqb].
  rewrite map_map. reflexivity.
Qed.

(** ** C43 *)
(** covariance_ is the projection of the EWA covariance whose cross-block entries are multiplied by gamma;
    when that matrix is well conditioned it is returned as it is; for gamma in [0, 1] it is PSD. *)
Theorem C43_schur_linear L p r n_blocks gamma interp diff rows xs :
  lawful L -> (1 <= p)%nat -> r <> 0 -> (1 <= n_blocks)%Z -> interp <> "geodesic" -> observes p diff rows xs -> xs <> [] ->
  let D := damped p (blocks n_blocks p) gamma (ewa_cov r (burn_len r) xs) in
  exists o B, fitted_on (C := Schur L) (SCH r n_blocks gamma interp diff) rows o /\
    location_ o = Ok (fv p (ewa_mean r (burn_len r) xs)) /\
    covariance_ o = Ok (fm p p B) /\ pd_projection p D B /\ pd p B /\
    (bounded_below p e8 D -> fm p p B = fm p p D) /\
    (0 <= r <= 1 -> 0 <= gamma <= 1 -> psd p D).
Proof.
  intros HL Hp Hr Hn Hi Ho Hx D. destruct (Schur_linear L HL p r n_blocks gamma interp diff rows xs Hp Hr Hn Hi Ho Hx) as (o & E1 & _ & E3 & E4).
  fold D in E4. exists o, (mpd L p D). pose proof (mpd_ok L HL p D Hp) as [_ BB]. pose proof (blocks_range n_blocks p Hp).
  split; [exact E1|]. split; [exact E3|]. split; [exact E4|]. split; [now apply mpd_projection|]. split; [apply (bb_pd p e8); auto using e8_pos|]. split.
  - intros HD. apply fm_meq. assert (SD : meq p p (symm D) D) by (apply symm_id; apply HD).
    eapply meq_trans; [apply mpd_fix; auto|exact SD]. apply (bb_ext p e8 D); auto. now apply meq_sym.
  - intros Hr1 Hg. apply psd_damped; auto; [lia|]. now apply psd_ewa_cov.
Qed.
(** gamma = 1 is make_pos_def of the covariance EwaCovariance reports on the same stream. *)
Theorem C43_gamma_one L p r n_blocks interp diff rows xs :
  lawful L -> (1 <= p)%nat -> r <> 0 -> (1 <= n_blocks)%Z -> observes p diff rows xs -> xs <> [] ->
  exists o o', fitted_on (C := Schur L) (SCH r n_blocks 1 interp diff) rows o /\ fitted_on (C := Ewa) (EWA r diff) rows o' /\
    covariance_ o = (c <- covariance_ o' ;; make_pos_def L c) /\ location_ o = location_ o'.
Proof.
  intros HL Hp Hr Hn Ho Hx. destruct (Ewa_run p r diff rows xs Hr Ho Hx) as (o' & F1 & _ & F3 & F4 & _).
  set (C := ewa_cov r (burn_len r) xs) in *. pose proof (mpd_ok L HL p C Hp) as [EC _].
  destruct (string_dec interp "geodesic") as [->|N].
  - destruct (Schur_geodesic L HL p r n_blocks 1 diff rows xs Hp Hr Hn Ho Hx) as (o & E1 & _ & E3 & E4). fold C in E4.
    exists o, o'. split; [exact E1|]. split; [exact F1|]. split; [|congruence]. rewrite E4, F4. cbn [bind]. rewrite EC. f_equal. apply fm_meq.
    destruct (gstep_spec L HL p (mpd L p (damped p (blocks n_blocks p) 0 C)) (mpd L p C) 1 Hp) as (Q & l & H1 & H2 & H3 & B & H4 & _ & H6).
    unfold gstep. rewrite H4. cbn [mres]. eapply meq_trans; [apply matR_fm|]. eapply meq_trans; [exact H6|].
    assert (FX : meq p p (mpd L p (mpd L p C)) (mpd L p C)).
    { assert (SS : meq p p (symm (mpd L p C)) (mpd L p C)) by (apply symm_id; now apply (mpd_sym L HL)).
      eapply meq_trans; [apply mpd_fix; auto|exact SS]. apply (bb_ext p e8 (mpd L p C)); [now apply meq_sym|]. now apply mpd_ok. }
    eapply meq_trans; [|exact FX]. eapply meq_trans; [|apply meq_sym; exact H3]. apply spec_ext. intros k Hk. apply Rpower_1. auto.
  - destruct (Schur_linear L HL p r n_blocks 1 interp diff rows xs Hp Hr Hn N Ho Hx) as (o & E1 & _ & E3 & E4). fold C in E4.
    exists o, o'. split; [exact E1|]. split; [exact F1|]. split; [|congruence]. rewrite E4, F4. cbn [bind]. rewrite EC. f_equal.
    rewrite (mpd_ext L p _ C (damped_1 p _ C p p)). reflexivity.
Qed.
(** interpolation="geodesic": positive definite for every gamma, and the same covariance as
    interpolation="linear" at gamma = 0 and at gamma = 1. *)
Theorem C43_schur_geodesic L p r n_blocks gamma diff rows xs :
  lawful L -> (1 <= p)%nat -> r <> 0 -> (1 <= n_blocks)%Z -> observes p diff rows xs -> xs <> [] ->
  exists o B, fitted_on (C := Schur L) (SCH r n_blocks gamma "geodesic" diff) rows o /\
    location_ o = Ok (fv p (ewa_mean r (burn_len r) xs)) /\ covariance_ o = Ok (fm p p B) /\ pd p B /\
    (gamma = 0 \/ gamma = 1 -> exists o', fitted_on (C := Schur L) (SCH r n_blocks gamma "linear" diff) rows o' /\ covariance_ o' = covariance_ o).
Proof.
  intros HL Hp Hr Hn Ho Hx. destruct (Schur_geodesic L HL p r n_blocks gamma diff rows xs Hp Hr Hn Ho Hx) as (o & E1 & _ & E3 & E4).
  set (C := ewa_cov r (burn_len r) xs) in *. set (k := blocks n_blocks p) in *.
  eexists o, _. split; [exact E1|]. split; [exact E3|]. split; [exact E4|]. split; [now apply (gstep_ok L HL)|].
  intros [-> | ->].
  - destruct (Schur_linear L HL p r n_blocks 0 "linear" diff rows xs Hp Hr Hn ltac:(discriminate) Ho Hx) as (o' & F1 & _ & _ & F4). fold C k in F4.
    exists o'. split; [exact F1|]. rewrite E4, F4. f_equal. apply fm_meq. set (D := damped p k 0 C).
    destruct (gstep_spec L HL p (mpd L p D) (mpd L p C) 0 Hp) as (Q & l & H1 & H2 & H3 & B & H4 & _ & H6).
    unfold gstep. rewrite H4. cbn [mres]. apply meq_sym. eapply meq_trans; [apply matR_fm|]. eapply meq_trans; [exact H6|].
    assert (FX : meq p p (mpd L p (mpd L p D)) (mpd L p D)).
    { assert (SS : meq p p (symm (mpd L p D)) (mpd L p D)) by (apply symm_id; now apply (mpd_sym L HL)).
      eapply meq_trans; [apply mpd_fix; auto|exact SS]. apply (bb_ext p e8 (mpd L p D)); [now apply meq_sym|]. now apply mpd_ok. }
    eapply meq_trans; [|exact FX]. eapply meq_trans; [|apply meq_sym; exact H2]. apply spec_ext. intros i Hi. apply Rpower_O. auto.
  - destruct (C43_gamma_one L p r n_blocks "linear" diff rows xs HL Hp Hr Hn Ho Hx) as (o1 & o2 & A1 & A2 & A3 & _).
    destruct (C43_gamma_one L p r n_blocks "geodesic" diff rows xs HL Hp Hr Hn Ho Hx) as (o3 & o4 & B1 & B2 & B3 & _).
    exists o1. split; [exact A1|]. rewrite (fitted_unique _ _ _ _ E1 B1), B3, A3. now rewrite (fitted_unique _ _ _ _ A2 B2).
Qed.
(** n_blocks <= 0 is not clamped here: reading the covariance raises ValueError. *)
Theorem C43_nonpositive_blocks L p r n_blocks gamma interp diff rows xs : r <> 0 -> (n_blocks <= 0)%Z -> observes p diff rows xs -> xs <> [] ->
  exists o, fitted_on (C := Schur L) (SCH r n_blocks gamma interp diff) rows o /\ covariance_ o = Err ValueError.
Proof. apply Schur_bad_blocks. Qed.

(** ** C45 *)
(** BlockCovariance = SchurCovariance(gamma=0) on every stream; zero between blocks; precision_ is the inverse. *)
Theorem C45_block_is_schur_zero L p r n_blocks diff rows xs :
  lawful L -> (1 <= p)%nat -> r <> 0 -> (1 <= n_blocks)%Z -> observes p diff rows xs -> xs <> [] ->
  exists o o', fitted_on (C := Block L) (BLK r n_blocks diff) rows o /\ fitted_on (C := Schur L) (SCH r n_blocks 0 "linear" diff) rows o' /\
    covariance_ o = covariance_ o' /\ location_ o = location_ o' /\ n_samples_ o = n_samples_ o' /\ correlation_ o = correlation_ o'.
Proof.
  intros HL Hp Hr Hn Ho Hx. destruct (Block_run L HL p r n_blocks diff rows xs Hp Hr Ho Hx) as (o & B & E1 & _ & E2 & E3 & E4 & _).
  destruct (Schur_linear L HL p r n_blocks 0 "linear" diff rows xs Hp Hr Hn ltac:(discriminate) Ho Hx) as (o' & F1 & F2 & F3 & F4).
  exists o, o'. split; [exact E1|]. split; [exact F1|]. split; [congruence|]. split; [congruence|]. split; [congruence|].
  unfold correlation_. now rewrite E4, F4.
Qed.
Theorem C45_block_covariance L p r n_blocks diff rows xs :
  lawful L -> (1 <= p)%nat -> r <> 0 -> observes p diff rows xs -> xs <> [] ->
  let k := blocks n_blocks p in
  exists o B P, fitted_on (C := Block L) (BLK r n_blocks diff) rows o /\
    location_ o = Ok (fv p (ewa_mean r (burn_len r) xs)) /\
    covariance_ o = Ok (fm p p B) /\ pd_projection p (damped p k 0 (ewa_cov r (burn_len r) xs)) B /\ pd p B /\ block_diagonal p k B /\
    (forall L', precision_ L' o = Ok (fm p p P)) /\ inverse p B P /\ block_diagonal p k P.
Proof.
  intros HL Hp Hr Ho Hx k. destruct (Block_run L HL p r n_blocks diff rows xs Hp Hr Ho Hx) as (o & P & E1 & _ & _ & E3 & E4 & E5 & E6 & E7).
  fold k in E4, E6, E7. set (D := damped p k 0 (ewa_cov r (burn_len r) xs)) in *. exists o, (mpd L p D), P.
  split; [exact E1|]. split; [exact E3|]. split; [exact E4|]. split; [now apply mpd_projection|].
  split; [apply (bb_pd p e8); [apply e8_pos|now apply mpd_ok]|].
  split; [apply (mpd_block_diagonal L HL); [now apply blocks_range|apply damped_0]|]. auto.
Qed.

(** ** C46 *)
Lemma rel_slw p k r xs :
  slw_g p k r (ewsum r (burn_len r) (slw_stat p k r (burn_len r)) xs) (ewa_cov r (burn_len r) xs) = coupling_reliability p k r xs.
Proof.
  unfold slw_g, coupling_reliability.
  assert (E1 : cross_sum p k (fun i j => ewa_cov r (burn_len r) xs i j * ewa_cov r (burn_len r) xs i j) = cross_sum p k (fun i j => ewa_cov r (burn_len r) xs i j ^ 2)) by
    (apply cross_sum_ext; intros i j _ _; ring).
  assert (E2 : ewsum r (burn_len r) (slw_stat p k r (burn_len r)) xs = cross_noise p k r (burn_len r) xs).
  { unfold cross_noise, ewsum. apply rsum_ext. intros n Hn. f_equal. unfold stat, slw_stat, slw_q. apply cross_sum_ext. intros i j _ _. unfold dev. ring. }
  rewrite E1, E2. cbv zeta. destruct (Rltb_spec 0 (cross_sum p k (fun i j => ewa_cov r (burn_len r) xs i j ^ 2))), (Rlt_dec 0 (cross_sum p k (fun i j => ewa_cov r (burn_len r) xs i j ^ 2))); try contradiction; auto.
  unfold rclip. now rewrite (Rmult_comm (cross_noise _ _ _ _ _)).
Qed.
(** gamma_ is the Ledoit-Wolf reliability of the cross-block coupling, always in [0, 1]; covariance_ is the
    projection of the EWA covariance damped by it, and positive definite. *)
Theorem C46_schur_ledoit_wolf L p r n_blocks diff rows xs :
  lawful L -> (1 <= p)%nat -> r <> 0 -> (1 <= n_blocks)%Z -> observes p diff rows xs -> xs <> [] ->
  let k := blocks n_blocks p in
  let g := coupling_reliability p k r xs in
  exists o B, fitted_on (C := SchurLW L) (BLK r n_blocks diff) rows o /\
    location_ o = Ok (fv p (ewa_mean r (burn_len r) xs)) /\
    slw_gamma_ L o = Ok (Fin g) /\ 0 <= g <= 1 /\
    covariance_ o = Ok (fm p p B) /\ pd_projection p (damped p k g (ewa_cov r (burn_len r) xs)) B /\ pd p B /\
    (g = 0 -> block_diagonal p k B).
Proof.
  intros HL Hp Hr Hn Ho Hx k g. pose proof (SchurLW_run L HL p r n_blocks diff rows xs Hp Hr Hn Ho Hx) as K. cbv zeta in K. fold k in K.
  rewrite rel_slw in K. fold g in K. destruct K as (o & E1 & _ & E3 & E4 & E5). set (D := damped p k g (ewa_cov r (burn_len r) xs)) in *.
  exists o, (mpd L p D). split; [exact E1|]. split; [exact E3|]. split; [exact E4|].
  split; [unfold g; rewrite <- rel_slw; apply slw_g_range|]. split; [exact E5|]. split; [now apply mpd_projection|].
  split; [apply (bb_pd p e8); [apply e8_pos|now apply mpd_ok]|].
  intros Hg. apply (mpd_block_diagonal L HL); [now apply blocks_range|]. unfold D. rewrite Hg. apply damped_0.
Qed.

(** ** Shares of C18 and C23 *)
Theorem C18_schur_psd L p r n_blocks gamma interp diff rows xs :
  lawful L -> (1 <= p)%nat -> r <> 0 -> (1 <= n_blocks)%Z -> observes p diff rows xs -> xs <> [] ->
  exists o, fitted_on (C := Schur L) (SCH r n_blocks gamma interp diff) rows o /\ psd_cov p o /\ finite_fitted p o.
Proof.
  intros HL Hp Hr Hn Ho Hx. destruct (string_dec interp "geodesic") as [->|N].
  - destruct (C43_schur_geodesic L p r n_blocks gamma diff rows xs HL Hp Hr Hn Ho Hx) as (o & B & E1 & E2 & E3 & E4 & _).
    exists o. split; [exact E1|]. split; [exists B; split; auto; now apply pd_psd|]. eapply finite_fitted_intro; eauto.
    intros i Hi. apply (psd_diag_nonneg p); auto. now apply pd_psd.
  - destruct (C43_schur_linear L p r n_blocks gamma interp diff rows xs HL Hp Hr Hn N Ho Hx) as (o & B & E1 & E2 & E3 & _ & E4 & _).
    exists o. split; [exact E1|]. split; [exists B; split; auto; now apply pd_psd|]. eapply finite_fitted_intro; eauto.
    intros i Hi. apply (psd_diag_nonneg p); auto. now apply pd_psd.
Qed.
Theorem C18_block_psd L p r n_blocks diff rows xs :
  lawful L -> (1 <= p)%nat -> r <> 0 -> observes p diff rows xs -> xs <> [] ->
  exists o, fitted_on (C := Block L) (BLK r n_blocks diff) rows o /\ psd_cov p o /\ finite_fitted p o.
Proof.
  intros HL Hp Hr Ho Hx.
  destruct (C45_block_covariance L p r n_blocks diff rows xs HL Hp Hr Ho Hx) as (o & B & P & E1 & E2 & E3 & _ & E4 & _).
  exists o. split; [exact E1|]. split; [exists B; split; auto; now apply pd_psd|]. eapply finite_fitted_intro; eauto.
  intros i Hi. apply (psd_diag_nonneg p); auto. now apply pd_psd.
Qed.
Theorem C18_schur_lw_psd L p r n_blocks diff rows xs :
  lawful L -> (1 <= p)%nat -> r <> 0 -> (1 <= n_blocks)%Z -> observes p diff rows xs -> xs <> [] ->
  exists o, fitted_on (C := SchurLW L) (BLK r n_blocks diff) rows o /\ psd_cov p o /\ finite_fitted p o.
Proof.
  intros HL Hp Hr Hn Ho Hx.
  destruct (C46_schur_ledoit_wolf L p r n_blocks diff rows xs HL Hp Hr Hn Ho Hx) as (o & B & E1 & E2 & _ & _ & E3 & _ & E4 & _).
  exists o. split; [exact E1|]. split; [exists B; split; auto; now apply pd_psd|]. eapply finite_fitted_intro; eauto.
  intros i Hi. apply (psd_diag_nonneg p); auto. now apply pd_psd.
Qed.

(** ** Concrete cases *)
(** np.array_split of five variables into two blocks is [0,3) and [3,5). *)
Example block_split_5_2 : map (block_of 5 2) (seq 0 5) = [0; 0; 0; 1; 1]%nat /\ map (block_start 5 2) (seq 0 3) = [0; 3; 5]%nat.
Proof. split; reflexivity. Qed.
(** The hypotheses of C43-C46 are met by a stream with coupling across the two blocks; here gamma = 1/2 halves it. *)
Example C43_witness : exists L o B, lawful L /\
  fitted_on (C := Schur L) (SCH (1 / 2) 2 (1 / 2) "linear" false) (map (fv 2) [fun _ => 1; fun _ => 0]) o /\
  covariance_ o = Ok (fm 2 2 B) /\ pd_projection 2 (damped 2 2 (1 / 2) (pcov_of [fun _ => 1; fun _ => 0])) B /\
  damped 2 2 (1 / 2) (pcov_of [fun _ => 1; fun _ => 0]) 0%nat 1%nat = 1 / 8 /\ fm 2 2 B = fm 2 2 (damped 2 2 (1 / 2) (pcov_of [fun _ => 1; fun _ => 0])).
Proof.
  destruct lawful_satisfiable as [L HL]. exists L. set (xs := [fun _ : nat => 1; fun _ => 0]).
  assert (EC : meq 2 2 (ewa_cov (1 / 2) (burn_len (1 / 2)) xs) (pcov_of xs)).
  { intros i j _ _. assert (Hb : (2 <= burn_len (1 / 2))%nat) by (pose proof (burn_len_bounds (1 / 2)); lia).
    unfold ewa_cov, after, burn. rewrite skipn_all2, firstn_all2 by exact Hb. apply ewc_nil. }
  destruct (C43_schur_linear L 2 (1 / 2) 2 (1 / 2) "linear" false (map (fv 2) xs) xs) as (o & B & H1 & _ & H2 & H3 & _ & H4 & _);
    auto; try lra; try lia; try apply observes_plain; try discriminate.
  change (blocks 2 2) with 2%nat in *. assert (ED : meq 2 2 (damped 2 2 (1 / 2) (ewa_cov (1 / 2) (burn_len (1 / 2)) xs)) (damped 2 2 (1 / 2) (pcov_of xs)))
    by now apply damped_ext.
  exists o, B. split; [exact HL|]. split; [exact H1|]. split; [exact H2|].
  assert (V : forall i j, pcov_of xs i j = 1 / 4) by (intros i j; unfold pcov_of, mean_of, xs; cbn; lra).
  split; [|split].
  - destruct H3 as [P1 P2]. split; auto. intros C HC. specialize (P2 C HC). pose proof (symm_ext 2 _ _ ED) as SE.
    rewrite (fro2_meq 2 _ (fun i j => B i j - symm (damped 2 2 (1 / 2) (ewa_cov (1 / 2) (burn_len (1 / 2)) xs)) i j)) by (intros i j Hi Hj; now rewrite SE).
    rewrite (fro2_meq 2 (fun i j => C i j - _) (fun i j => C i j - symm (damped 2 2 (1 / 2) (ewa_cov (1 / 2) (burn_len (1 / 2)) xs)) i j)) by (intros i j Hi Hj; now rewrite SE).
    exact P2.
  - unfold damped. cbn. rewrite V. lra.
  - rewrite H4; [now apply fm_meq|]. apply (bb_ext 2 e8 (damped 2 2 (1 / 2) (pcov_of xs))); [now apply meq_sym|]. split.
    + apply damped_sym, sym_pcov.
    + intros v. unfold qf, rdot, damped. cbn. rewrite !V. unfold e8. nra.
Qed.

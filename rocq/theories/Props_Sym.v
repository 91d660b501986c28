(** * C79-C81: symmetries of the estimators over the reals *)
From Coq Require Import Reals ZArith String List Lia Lra Arith Bool.
From Verif Require Import Num Numpy BaseModel Spec ListLemmas LinalgModel Estimators RMat LinSpec Fin RealSpec RunFin EwaReal RunAvg EmpFacts Props_Emp
  ShrinkReal MomentReal FactorReal Spectral MatAlg Contracts LinalgReal RobustReal TylerReal SymSpec SymReal SymRun SymGeo SymPerm.
Import ListNotations.
Local Open Scope string_scope.
Local Open Scope R_scope.

(** ** C80: rotations, relabellings and changes of units *)
Lemma lw_intensity_meq p r pi S S' : meq p p S S' -> lw_intensity p r pi S = lw_intensity p r pi S'.
Proof.
  intros H. assert (E : disp p S = disp p S').
  { unfold disp. f_equal. apply fro2_meq. intros i j Hi Hj. now rewrite (H i j Hi Hj), (rtrace_ext p S S' H). }
  unfold lw_intensity. now rewrite E.
Qed.
Lemma map_nil_neq {A B} (f : A -> B) l : l <> [] -> map f l <> [].
Proof. destruct l; [congruence|discriminate]. Qed.

Theorem C80_ewa_follows p A b r diff ys : r <> 0 -> seen diff ys <> [] -> follows p A b Ewa (EWA r) diff ys.
Proof. intros Hr Hx. exact (C20_ewa_affine_equivariance p p r diff ys A b Hr Hx). Qed.
Theorem C80_empirical_follows p A b diff ys : seen diff ys <> [] -> follows p A b Empirical (mkEmpP) diff ys.
Proof. intros Hx. exact (C20_empirical_affine_equivariance p p diff ys A b Hx). Qed.

Theorem C80_ledoit_wolf_follows p s A b r diff ys : (1 <= p)%nat -> r <> 0 -> similarity p s A -> seen diff ys <> [] ->
  follows p A b LedoitWolf (EWA r) diff ys.
Proof.
  intros Hp Hr HA Hx. set (b' := if diff then fun _ => 0 else b).
  destruct (LedoitWolf_run p r diff _ _ Hp Hr (observes_seen p diff ys) Hx) as (o & E1 & _ & E3 & E4 & _).
  destruct (LedoitWolf_run p r diff _ _ Hp Hr (seen_aff p p A b diff ys) (map_nil_neq _ _ Hx)) as (o' & F1 & _ & F3 & F4 & _).
  fold b' in F3, F4. pose proof (burn_len_bounds r) as Hb.
  eexists o, o', _, _. split; [exact E1|]. split; [exact F1|]. split; [exact E3|]. split; [exact E4|].
  rewrite F3, F4. split; f_equal.
  - apply fv_ext. intros. fold b'. apply ewa_mean_aff; auto; lia.
  - set (xs := seen diff ys) in *.
    assert (ES : meq p p (ewa_cov r (burn_len r) (map (aff p A b') xs)) (congr p A (ewa_cov r (burn_len r) xs))).
    { intros i j _ _. apply (ewa_cov_aff r (burn_len r) p A); auto; lia. }
    apply fm_ext. intros i j Hi Hj.
    rewrite (lw_pi_congr p s A HA Hp) by lia.
    rewrite (shrinkI_meq p _ _ _ ES i j Hi Hj).
    rewrite (lw_intensity_meq p r _ _ _ ES).
    rewrite (lw_intensity_congr p s A HA Hp). now apply (congr_shrink p s A HA Hp).
Qed.

Theorem C80_oas_follows p s A b r diff ys : (1 <= p)%nat -> r <> 0 -> similarity p s A -> seen diff ys <> [] ->
  follows p A b OAS (EWA r) diff ys.
Proof.
  intros Hp Hr HA Hx. set (b' := if diff then fun _ => 0 else b).
  destruct (OAS_run p r diff _ _ Hp Hr (observes_seen p diff ys) Hx) as (o & E1 & _ & E3 & E4 & _).
  destruct (OAS_run p r diff _ _ Hp Hr (seen_aff p p A b diff ys) (map_nil_neq _ _ Hx)) as (o' & F1 & _ & F3 & F4 & _).
  fold b' in F3, F4. pose proof (burn_len_bounds r) as Hb.
  eexists o, o', _, _. split; [exact E1|]. split; [exact F1|]. split; [exact E3|]. split; [exact E4|].
  rewrite F3, F4. split; f_equal.
  - apply fv_ext. intros. fold b'. apply ewa_mean_aff; auto; lia.
  - set (xs := seen diff ys) in *.
    assert (ES : meq p p (ewa_cov r (burn_len r) (map (aff p A b') xs)) (congr p A (ewa_cov r (burn_len r) xs))).
    { intros i j _ _. apply (ewa_cov_aff r (burn_len r) p A); auto; lia. }
    apply fm_ext. intros i j Hi Hj.
    rewrite (shrinkI_meq p _ _ _ ES i j Hi Hj), (oas_rho_meq p r _ _ ES).
    rewrite (oas_rho_congr p s A HA Hp) by apply sym_ewa_cov. now apply (congr_shrink p s A HA Hp).
Qed.
Theorem C80_shrunk_identity_follows p s A b r delta diff ys : (1 <= p)%nat -> r <> 0 -> similarity p s A -> seen diff ys <> [] ->
  follows p A b Shrunk (SHR r delta "identity") diff ys.
Proof.
  intros Hp Hr HA Hx. set (b' := if diff then fun _ => 0 else b).
  destruct (Shrunk_identity_run p r delta diff _ _ Hp Hr (observes_seen p diff ys) Hx) as (o & E1 & _ & E3 & E4 & _).
  destruct (Shrunk_identity_run p r delta diff _ _ Hp Hr (seen_aff p p A b diff ys) (map_nil_neq _ _ Hx)) as (o' & F1 & _ & F3 & F4 & _).
  fold b' in F3, F4. pose proof (burn_len_bounds r) as Hb.
  eexists o, o', _, _. split; [exact E1|]. split; [exact F1|]. split; [exact E3|]. split; [exact E4|].
  rewrite F3, F4. split; f_equal.
  - apply fv_ext. intros. fold b'. apply ewa_mean_aff; auto; lia.
  - set (xs := seen diff ys) in *.
    assert (ES : meq p p (ewa_cov r (burn_len r) (map (aff p A b') xs)) (congr p A (ewa_cov r (burn_len r) xs))).
    { intros i j _ _. apply (ewa_cov_aff r (burn_len r) p A); auto; lia. }
    apply fm_ext. intros i j Hi Hj.
    rewrite (shrinkI_meq p _ _ _ ES i j Hi Hj). now apply (congr_shrink p s A HA Hp).
Qed.
Theorem C80_huber_follows L p s A b r c diff ys : lawful L -> (1 <= p)%nat -> 0 < r <= 1 -> similarity p s A -> seen diff ys <> [] ->
  follows p A b (Huber L) (HUB r c) diff ys.
Proof.
  intros HL Hp Hr HA Hx. set (b' := if diff then fun _ => 0 else b).
  destruct (Huber_run L HL p r c diff _ _ Hp Hr (observes_seen p diff ys) Hx) as (o & E1 & _ & E3 & E4 & _).
  destruct (Huber_run L HL p r c diff _ _ Hp Hr (seen_aff p p A b diff ys) (map_nil_neq _ _ Hx)) as (o' & F1 & _ & F3 & F4 & _).
  fold b' in F3, F4.
  destruct (rel_hub_st p s A HA Hp b' L HL r c _ _ Hr Hx (img_map p A b' (seen diff ys))) as (_ & R1 & R2).
  eexists o, o', _, _. split; [exact E1|]. split; [exact F1|]. split; [exact E3|]. split; [exact E4|].
  rewrite F3, F4. split; f_equal; [now apply fv_ext|now apply fm_ext].
Qed.
Theorem C80_adaptive_follows L p s A b r mx diff ys : lawful L -> (1 <= p)%nat -> r <> 0 -> similarity p s A -> seen diff ys <> [] ->
  follows p A b (Adaptive L) (ADA r mx) diff ys.
Proof.
  intros HL Hp Hr HA Hx. set (b' := if diff then fun _ => 0 else b).
  destruct (Adaptive_run L HL p r mx diff _ _ Hp Hr (observes_seen p diff ys) Hx) as (o & E1 & _ & E3 & E4 & _).
  destruct (Adaptive_run L HL p r mx diff _ _ Hp Hr (seen_aff p p A b diff ys) (map_nil_neq _ _ Hx)) as (o' & F1 & _ & F3 & F4 & _).
  fold b' in F3, F4.
  destruct (rel_ada_st p s A HA Hp b' L HL r mx _ _ Hx (img_map p A b' (seen diff ys))) as (_ & R1 & R2).
  eexists o, o', _, _. split; [exact E1|]. split; [exact F1|]. split; [exact E3|]. split; [exact E4|].
  rewrite F3, F4. split; f_equal; [now apply fv_ext|now apply fm_ext].
Qed.
(** the geodesic step floors eigenvalues at 1e-8, so only length-preserving maps *)
Theorem C80_geodesic_follows L p A b r diff ys : lawful L -> (1 <= p)%nat -> r <> 0 -> similarity p 1 A -> seen diff ys <> [] ->
  follows p A b (Geodesic L) (EWA r) diff ys.
Proof.
  intros HL Hp Hr HA Hx. set (b' := if diff then fun _ => 0 else b).
  destruct (Geodesic_run L HL p r diff _ _ Hp Hr (observes_seen p diff ys) Hx) as (o & E1 & _ & E3 & E4 & _).
  destruct (Geodesic_run L HL p r diff _ _ Hp Hr (seen_aff p p A b diff ys) (map_nil_neq _ _ Hx)) as (o' & F1 & _ & F3 & F4 & _).
  fold b' in F3, F4.
  destruct (rel_geo_st p A HA Hp L HL r b' _ _ Hx (img_map p A b' (seen diff ys))) as (_ & R1 & R2).
  eexists o, o', _, _. split; [exact E1|]. split; [exact F1|]. split; [exact E3|]. split; [exact E4|].
  rewrite F3, F4. split; f_equal; [now apply fv_ext|now apply fm_ext].
Qed.
(** innovations start at 0, so no shift (unless it is differenced away); length-preserving because of the repair loop *)
Theorem C80_partial_moments_follows L fuel p A b r diff ys : lawful L -> (1 <= p)%nat -> (1 <= fuel)%nat -> 0 < r <= 1 -> similarity p 1 A ->
  diff = true \/ (forall i, b i = 0) -> seen diff ys <> [] ->
  follows p A b (PartialMoments L fuel) (EWA r) diff ys.
Proof.
  intros HL Hp Hf Hr HA Hb Hx. set (b' := if diff then fun _ => 0 else b).
  assert (B0 : forall i, b' i = 0) by (unfold b'; destruct Hb as [->|Hb]; [auto|destruct diff; auto]).
  assert (Hr0 : r <> 0) by lra.
  destruct (PartialMoments_run L fuel p r diff _ _ Hr0 (observes_seen p diff ys) Hx) as (o & E1 & _ & E3 & E4 & _).
  destruct (PartialMoments_run L fuel p r diff _ _ Hr0 (seen_aff p p A b diff ys) (map_nil_neq _ _ Hx)) as (o' & F1 & _ & F3 & F4 & _).
  fold b' in F3, F4. pose proof (burn_len_bounds r) as Hnb. set (xs := seen diff ys) in *.
  destruct (npd_congr p A L fuel (dev_cov r (burn_len r) xs) (dev_cov r (burn_len r) (map (aff p A b') xs)) HA Hp HL Hf) as (B & P1 & SB & P2).
  - apply psd_dev_cov. lra.
  - intros i j _ _. rewrite <- dev_cov_aff0 by lia.
    replace (map (aff p A b') xs) with (map (aff p A (fun _ => 0)) xs); [reflexivity|].
    apply map_ext. intros x. unfold aff. apply FunctionalExtensionality.functional_extensionality. intros k. now rewrite B0.
  - rewrite P1 in E4. cbn [bind] in E4. rewrite to_symmetric_sym_fin in E4 by auto.
    rewrite P2 in F4. cbn [bind] in F4. rewrite to_symmetric_sym_fin in F4 by (apply (congr_sym p A B p); auto).
    eexists o, o', _, _. split; [exact E1|]. split; [exact F1|]. split; [exact E3|]. split; [exact E4|]. split; [|exact F4].
    rewrite F3. f_equal. apply fv_ext. intros. fold b'. apply ewa_mean_aff; auto; lia.
Qed.

(** ** C79: reordering the variables *)
Theorem C79_order_empirical p sg diff ys : reorders p sg -> seen diff ys <> [] -> ignores_order p sg Empirical mkEmpP diff ys.
Proof. intros HS. intros. apply follows_order; auto. now apply C80_empirical_follows. Qed.
Theorem C79_order_ewa p sg r diff ys : reorders p sg -> r <> 0 -> seen diff ys <> [] -> ignores_order p sg Ewa (EWA r) diff ys.
Proof. intros HS. intros. apply follows_order; auto. now apply C80_ewa_follows. Qed.
Theorem C79_order_ledoit_wolf p sg r diff ys : reorders p sg -> (1 <= p)%nat -> r <> 0 -> seen diff ys <> [] -> ignores_order p sg LedoitWolf (EWA r) diff ys.
Proof. intros HS. intros. apply follows_order; auto. apply (C80_ledoit_wolf_follows p 1); auto using Pm_similarity. Qed.
Theorem C79_order_oas p sg r diff ys : reorders p sg -> (1 <= p)%nat -> r <> 0 -> seen diff ys <> [] -> ignores_order p sg OAS (EWA r) diff ys.
Proof. intros HS. intros. apply follows_order; auto. apply (C80_oas_follows p 1); auto using Pm_similarity. Qed.
Theorem C79_order_huber p sg L r c diff ys : reorders p sg -> lawful L -> (1 <= p)%nat -> 0 < r <= 1 -> seen diff ys <> [] -> ignores_order p sg (Huber L) (HUB r c) diff ys.
Proof. intros HS. intros. apply follows_order; auto. apply (C80_huber_follows L p 1); auto using Pm_similarity. Qed.
Theorem C79_order_adaptive p sg L r mx diff ys : reorders p sg -> lawful L -> (1 <= p)%nat -> r <> 0 -> seen diff ys <> [] -> ignores_order p sg (Adaptive L) (ADA r mx) diff ys.
Proof. intros HS. intros. apply follows_order; auto. apply (C80_adaptive_follows L p 1); auto using Pm_similarity. Qed.
Theorem C79_order_geodesic p sg L r diff ys : reorders p sg -> lawful L -> (1 <= p)%nat -> r <> 0 -> seen diff ys <> [] -> ignores_order p sg (Geodesic L) (EWA r) diff ys.
Proof. intros HS. intros. apply follows_order; auto. apply (C80_geodesic_follows L p); auto using Pm_similarity. Qed.
Theorem C79_order_partial_moments p sg L fuel r diff ys : reorders p sg -> lawful L -> (1 <= p)%nat -> (1 <= fuel)%nat -> 0 < r <= 1 -> seen diff ys <> [] ->
  ignores_order p sg (PartialMoments L fuel) (EWA r) diff ys.
Proof. intros HS. intros. apply follows_order; auto. apply (C80_partial_moments_follows L fuel p); auto using Pm_similarity. Qed.
Lemma mean_order sg r nb xs i : ewa_mean r nb (map (fun (y : obs) i => y (sg i)) xs) i = ewa_mean r nb xs (sg i).
Proof. apply (ewa_ext_map r nb (fun (y : obs) i => y (sg i)) sg xs (fun _ _ => eq_refl)). Qed.
Theorem C79_order_shrunk p sg r delta target diff ys : reorders p sg -> (1 <= p)%nat -> r <> 0 -> seen diff ys <> [] ->
  ignores_order p sg Shrunk (SHR r delta target) diff ys.
Proof.
  intros HS Hp Hr Hx. destruct (string_dec target "identity") as [->|Ht].
  - apply follows_order; auto. apply (C80_shrunk_identity_follows p 1); auto using Pm_similarity.
  - destruct (Shrunk_cc_run p r delta target diff _ _ Hp Hr Ht (observes_seen p diff ys) Hx) as (o & E1 & _ & E3 & E4 & _).
    destruct (Shrunk_cc_run p r delta target diff _ _ Hp Hr Ht (seen_sel p sg diff ys) (map_nil_neq _ _ Hx)) as (o' & F1 & _ & F3 & F4 & _).
    eexists o, o', _, _. split; [exact E1|]. split; [exact F1|]. split; [exact E3|]. split; [exact E4|].
    rewrite F3, F4. split; f_equal; [apply fv_ext; intros; apply mean_order|]. apply fm_ext. intros i j Hi Hj.
    destruct (ewa_ext_map r (burn_len r) (fun (y : obs) i => y (sg i)) sg (seen diff ys) (fun _ _ => eq_refl)) as [_ K].
    rewrite K. f_equal. f_equal. rewrite <- (cc_target_perm p sg HS) by auto.
    unfold cc_target, rbar, vol. destruct (Nat.eqb i j); rewrite !K; [reflexivity|]. f_equal. f_equal.
    unfold msk. apply rsum_ext. intros k _. apply rsum_ext. intros l _. now rewrite !K.
Qed.
Theorem C79_order_diagonal p sg r diff ys : reorders p sg -> r <> 0 -> seen diff ys <> [] -> ignores_order p sg Diagonal (EWA r) diff ys.
Proof.
  intros HS Hr Hx.
  destruct (Diagonal_run p r diff _ _ Hr (observes_seen p diff ys) Hx) as (o & E1 & _ & E3 & E4 & _).
  destruct (Diagonal_run p r diff _ _ Hr (seen_sel p sg diff ys) (map_nil_neq _ _ Hx)) as (o' & F1 & _ & F3 & F4 & _).
  eexists o, o', _, _. split; [exact E1|]. split; [exact F1|]. split; [exact E3|]. split; [exact E4|].
  rewrite F3, F4. split; f_equal; [apply fv_ext; intros; apply mean_order|]. apply fm_ext. intros i j Hi Hj.
  rewrite <- (rdiag_perm p sg HS) by auto. unfold rdiag. destruct (Nat.eqb i j); [|reflexivity].
  unfold diag_var. exact (sq_perm sg r (burn_len r) (seen diff ys) i).
Qed.
Theorem C79_order_dcc p sg r vol_r diff ys : reorders p sg -> Rmin r (vol_rate r vol_r) <> 0 -> seen diff ys <> [] ->
  ignores_order p sg DCC (DCCP r vol_r) diff ys.
Proof.
  intros HS Hr Hx.
  destruct (DCC_run p r vol_r diff _ _ Hr (observes_seen p diff ys) Hx) as (o & E1 & _ & E3 & E4 & _).
  destruct (DCC_run p r vol_r diff _ _ Hr (seen_sel p sg diff ys) (map_nil_neq _ _ Hx)) as (o' & F1 & _ & F3 & F4 & _).
  eexists o, o', _, _. split; [exact E1|]. split; [exact F1|]. split; [exact E3|]. split; [exact E4|].
  rewrite F3, F4. split; f_equal; [apply fv_ext; intros; apply mean_order|]. apply fm_ext. intros i j Hi Hj.
  exact (dcc_perm sg _ _ _ _ i j).
Qed.
Theorem C79_order_factor p sg K r diff ys : reorders p sg -> seen diff ys <> [] -> ignores_order p sg Factor (FACP K r) diff ys.
Proof.
  intros HS Hx.
  destruct (Factor_run p K r diff _ _ (observes_seen p diff ys) Hx) as (o & E1 & _ & E3 & E4 & _).
  destruct (Factor_run p K r diff _ _ (seen_sel p sg diff ys) (map_nil_neq _ _ Hx)) as (o' & F1 & _ & F3 & F4 & _).
  eexists o, o', _, _. split; [exact E1|]. split; [exact F1|]. split; [exact E3|]. split; [exact E4|].
  rewrite F3, F4. split; f_equal; [apply fv_ext; intros; apply mean_order|]. apply fm_ext. intros i j Hi Hj.
  rewrite <- (fac_H_perm p sg HS _ _ _ i j (fac_comps_perm p sg HS (Nat.min K p) r (seen diff ys)) Hi Hj).
  unfold fac_H. f_equal. unfold rdiag. destruct (Nat.eqb i j); [|reflexivity]. f_equal. f_equal.
  exact (sq_perm sg r _ (seen diff ys) i).
Qed.
(** Tyler normalises its first innovation, which must not be zero *)
Theorem C79_order_tyler p sg L r diff ys x xs : reorders p sg -> lawful L -> (1 <= p)%nat -> 0 < r < 1 -> seen diff ys = x :: xs ->
  (exists i, (i < p)%nat /\ x i <> 0) -> ignores_order p sg (Tyler L) (EWA r) diff ys.
Proof.
  intros HS HL Hp Hr Hx Nz. pose proof (observes_seen p diff ys) as O. pose proof (seen_sel p sg diff ys) as O'. rewrite Hx in O, O'. cbn [map] in O'.
  destruct (Tyler_run L HL p r diff _ x xs Hp Hr O Nz) as (o & E1 & _ & _ & E3 & E4 & _).
  destruct (Tyler_run L HL p r diff _ _ _ Hp Hr O') as (o' & F1 & _ & _ & F3 & F4 & _).
  { destruct Nz as (i & Hi & Ni). destruct (reorders_onto p sg HS i Hi) as (k & Hk & <-). exists k. split; auto. }
  assert (HI : Forall2 (img p (Pm sg) (fun _ => 0)) (x :: xs) (map (fun (y : obs) i => y (sg i)) (x :: xs))).
  { generalize (x :: xs). intros l. induction l as [|y l IH]; cbn [map]; constructor; auto.
    intros i Hi. unfold aff. rewrite rapp_Pm by (now apply (proj1 HS)). ring. }
  destruct (rel_tyl_st p (Pm sg) (Pm_similarity p sg HS) Hp L HL r _ _ HI) as (_ & R2 & R3). cbn [map] in R2, R3.
  eexists o, o', _, _. split; [exact E1|]. split; [exact F1|]. split; [exact E3|]. split; [exact E4|].
  rewrite F3, F4. split; f_equal.
  - apply fv_ext. intros i Hi. rewrite (R2 i Hi). unfold aff. rewrite rapp_Pm by (now apply (proj1 HS)). ring.
  - apply fm_ext. intros i j Hi Hj. unfold corr_of.
    rewrite (R3 i j Hi Hj), (R3 i i Hi Hi), (R3 j j Hj Hj). rewrite !congr_Pm by (now apply (proj1 HS)). reflexivity.
Qed.

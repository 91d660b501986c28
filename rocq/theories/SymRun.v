(** * Symmetries of the runs of the classes (proof infrastructure) *)
From Coq Require Import Reals ZArith String List Lia Lra Arith Bool Setoid Morphisms FinFun.
From Verif Require Import Num Numpy PyVal LinalgModel StateModel BaseModel Estimators
  Spec ListLemmas BaseProofs RMat LinSpec Fin RealSpec RunFin EwaReal RunAvg EmpFacts Spectral MatAlg Contracts LinalgReal
  ShrinkReal RobustReal TylerReal Props_Emp SymSpec SymReal.
Import ListNotations.
Local Open Scope string_scope.
Local Open Scope R_scope.

Lemma img_map p A b xs : Forall2 (img p A b) xs (map (aff p A b) xs).
Proof. induction xs; constructor; auto. intros i _. reflexivity. Qed.

Section Sim.
  Context (p : nat) (s : R) (A : rmat) (HA : similarity p s A) (Hp : (1 <= p)%nat) (b : obs).
  Context (L : LinAlg NumX) (HL : lawful L).
  Let Spos : 0 < s := proj1 HA.

  (** ** Huber *)
  Lemma rel_hub r c nb a a' x x' : psd p (aC a) -> rel p A b a a' -> img p A b x x' ->
    rel p A b (hub_step L p r c nb a x) (hub_step L p r c nb a' x').
  Proof.
    intros HP HR HX. pose proof (rel_maha p s A HA b L HL a a' x x' Hp (proj1 HP) HR HX) as EM.
    pose proof (rel_dv p A b a a' x x' HR HX) as D. unfold hub_step. rewrite (proj1 HR).
    destruct (Nat.ltb (an a) nb); [now apply rel_emp|].
    assert (EW : hub_w L p c a' x' = hub_w L p c a x) by (unfold hub_w; now rewrite EM). rewrite EW. set (w := hub_w L p c a x).
    destruct HR as (R1 & R2 & R3). split; [cbn [an]; auto|]. cbn [am aC]. split.
    - intros i Hi. rewrite (R2 i Hi), (D i Hi), !aff_rapp.
      rewrite (rapp_lin p A (am a) (dv a x) (fun i => am a i + r * (w * dv a x i)) 1 (r * w)) by (intros; ring). ring.
    - intros i j Hi Hj. rewrite (R3 i j Hi Hj), (D i Hi), (D j Hj). symmetry.
      etransitivity; [apply (congr_lin p A (aC a) (fun k l => dv a x k * dv a x l) _ (1 - r) (r * (w * w))); intros; ring|].
      rewrite <- congr_outer. unfold rapp. ring.
  Qed.
  Lemma rel_hub_st r c xs xs' : 0 < r <= 1 -> xs <> [] -> Forall2 (img p A b) xs xs' ->
    rel p A b (hub_st L p r c xs) (hub_st L p r c xs').
  Proof.
    intros Hr. unfold hub_st. pose proof (burn_len_bounds r) as B. apply (rel_run p A b (hub_step L p r c (burn_len r)) (fun a => psd p (aC a))).
    - intros x. unfold hub_step. cbn [an a_init]. destruct (burn_len r); [lia|reflexivity].
    - intros x. apply psd_emp_step. exact (psd_zero p).
    - intros. now apply rel_hub.
    - intros. apply psd_hub_step; auto. lra.
  Qed.

  (** ** AdaptiveEwa *)
  Lemma rel_ada_st r mx xs xs' : xs <> [] -> Forall2 (img p A b) xs xs' ->
    rel p A b (ad (ada_st L p r mx xs)) (ad (ada_st L p r mx xs')).
  Proof.
    intros Hx H. unfold ada_st. pose proof (burn_len_bounds r) as B.
    assert (G : forall xs xs', Forall2 (img p A b) xs xs' -> forall q q', sym p (aC (ad q)) -> rel p A b (ad q) (ad q') -> asb q' = asb q ->
       rel p A b (ad (fold_left (ada_step L p r mx (burn_len r)) xs q)) (ad (fold_left (ada_step L p r mx (burn_len r)) xs' q'))).
    { clear xs xs' Hx H. intros xs xs' H. induction H as [|x x' xs xs' HX H IH]; intros q q' Sq HR E; [exact HR|]. cbn [fold_left]. apply IH.
      - now apply sym_ada_step.
      - pose proof (rel_maha p s A HA b L HL _ _ x x' Hp Sq HR HX) as EM. unfold ada_step. rewrite (proj1 HR).
        destruct (Nat.ltb (an (ad q)) (burn_len r)); cbn [ad]; [now apply rel_emp|].
        unfold ada_sbar. rewrite EM, E. now apply rel_ew.
      - pose proof (rel_maha p s A HA b L HL _ _ x x' Hp Sq HR HX) as EM. unfold ada_step. rewrite (proj1 HR).
        destruct (Nat.ltb (an (ad q)) (burn_len r)); cbn [asb]; [exact E|]. unfold ada_sbar. now rewrite EM, E. }
    destruct H as [|x x' xs xs' HX H]; [congruence|]. cbn [fold_left].
    assert (E0 : forall x, ada_step L p r mx (burn_len r) ad_init x = mkAd (emp_step a_init x) 1).
    { intros z. unfold ada_step, ad_init. cbn [ad an a_init asb]. destruct (burn_len r); [lia|reflexivity]. }
    rewrite !E0. apply G; auto.
    - cbn [ad]. apply sym_emp_step. intros i j _ _. reflexivity.
    - cbn [ad]. now apply rel_first.
  Qed.

  (** ** shrinkage towards the identity *)
  Lemma congr_shrink a S : meq p p (shrinkI p a (congr p A S)) (congr p A (shrinkI p a S)).
  Proof.
    intros i j Hi Hj. unfold shrinkI at 1. rewrite (congr_trace p s A HA S). symmetry.
    etransitivity; [apply (congr_lin p A S rI _ (1 - a) (a * (rtrace p S / INR p))); reflexivity|].
    rewrite (congr_I p s A HA i j Hi Hj). field. now apply INR_nz.
  Qed.
  Lemma shrinkI_meq a S S' : meq p p S S' -> meq p p (shrinkI p a S) (shrinkI p a S').
  Proof. intros H i j Hi Hj. unfold shrinkI. rewrite (H i j Hi Hj), (rtrace_ext p S S' H). reflexivity. Qed.
  Lemma oas_rho_congr r S : sym p S -> oas_rho p r (congr p A S) = oas_rho p r S.
  Proof.
    intros HS.
    assert (ET : rtrace p (rmul p (congr p A S) (congr p A S)) = s * s * rtrace p (rmul p S S)).
    { rewrite (rtrace_ext p _ _ (congr_mulmul p s A HA S S)). unfold rtrace at 1. rewrite rsum_scal.
      fold (rtrace p (congr p A (rmul p S S))). rewrite (congr_trace p s A HA). ring. }
    assert (EN : oas_num p (congr p A S) = s * s * oas_num p S) by (unfold oas_num; rewrite ET, (congr_trace p s A HA); ring).
    assert (ED : oas_den p r (congr p A S) = s * s * oas_den p r S).
    { unfold oas_den. rewrite ET, (congr_trace p s A HA). field. now apply INR_nz. }
    unfold oas_rho. rewrite EN, ED. assert (0 < s * s) by nra.
    destruct (Rleb_spec (s * s * oas_den p r S) 0) as [H1|H1]; destruct (Rleb_spec (oas_den p r S) 0) as [H2|H2]; try reflexivity; try nra.
    do 2 f_equal. field. split; lra.
  Qed.
  Lemma oas_rho_meq r S S' : meq p p S S' -> oas_rho p r S = oas_rho p r S'.
  Proof.
    intros H. assert (E : rtrace p (rmul p S S) = rtrace p (rmul p S' S')) by (apply rtrace_ext; now rewrite H).
    unfold oas_rho, oas_num, oas_den. now rewrite E, (rtrace_ext p S S' H).
  Qed.
  Lemma disp_congr S : disp p (congr p A S) = s * s * disp p S.
  Proof.
    unfold disp. rewrite (fro2_meq p _ (congr p A (fun i j => S i j - rtrace p S / INR p * rI i j))).
    - rewrite (congr_fro2 p s A HA). field. now apply INR_nz.
    - intros i j Hi Hj. rewrite (congr_trace p s A HA). symmetry.
      etransitivity; [apply (congr_lin p A S rI _ 1 (- (rtrace p S / INR p))); intros; ring|].
      rewrite (congr_I p s A HA i j Hi Hj). field. now apply INR_nz.
  Qed.
  Lemma lw_intensity_congr r pi S : lw_intensity p r (s * s * pi) (congr p A S) = lw_intensity p r pi S.
  Proof.
    unfold lw_intensity. rewrite disp_congr. assert (0 < s * s) by nra. set (d := disp p S).
    destruct (Rleb_spec (s * s * d) 0) as [H1|H1]; destruct (Rleb_spec d 0) as [H2|H2]; try reflexivity; try nra; cbn [orb].
    destruct (Rleb_spec (s * s * pi) 0) as [H3|H3]; destruct (Rleb_spec pi 0) as [H4|H4]; try reflexivity; try nra.
    f_equal. replace (s * s * pi * r) with (s * s * (pi * r)) by ring.
    replace (Rmin (s * s * (pi * r)) (s * s * d)) with (s * s * Rmin (pi * r) d); [field; split; lra|].
    unfold Rmin. destruct (Rle_dec (pi * r) d), (Rle_dec (s * s * (pi * r)) (s * s * d)); try reflexivity; nra.
  Qed.
  Lemma lw_q_congr m C m' C' x x' : veq p m' (aff p A b m) -> meq p p C' (congr p A C) -> img p A b x x' ->
    lw_q p m' C' x' = s * s * lw_q p m C x.
  Proof.
    intros Hm HC HX. unfold lw_q. rewrite (fro2_meq p _ (congr p A (fun i j => (x i - m i) * (x j - m j) - C i j))).
    - rewrite (congr_fro2 p s A HA). field. now apply INR_nz.
    - intros i j Hi Hj. rewrite (Hm i Hi), (Hm j Hj), (HC i j Hi Hj), (HX i Hi), (HX j Hj), !aff_diff. symmetry.
      etransitivity; [apply (congr_lin p A C (fun k l => (x k - m k) * (x l - m l)) _ (-1) 1); intros; ring|]. rewrite <- congr_outer. ring.
  Qed.
  Lemma lw_pi_congr r nb xs : (1 <= nb)%nat ->
    ewsum r nb (lw_stat p r nb) (map (aff p A b) xs) = s * s * ewsum r nb (lw_stat p r nb) xs.
  Proof.
    intros Hn. unfold ewsum. rewrite map_length. rewrite <- rsum_scal. apply rsum_ext. intros k Hk.
    assert (E : stat (lw_stat p r nb) (map (aff p A b) xs) (nb + k) = s * s * stat (lw_stat p r nb) xs (nb + k)).
    { unfold stat. rewrite firstn_map. unfold nthobs. rewrite (nth_indep _ _ (aff p A b (fun _ => 0))) by (rewrite map_length; lia).
      rewrite map_nth. assert (Nz : firstn (nb + k) xs <> []).
      { destruct xs as [|y ys]; [cbn [length] in Hk; lia|]. destruct (nb + k)%nat eqn:E; [lia|]. discriminate. }
      unfold lw_stat. apply lw_q_congr.
      - intros i _. now apply ewa_mean_aff.
      - intros i j _ _. now apply ewa_cov_aff.
      - intros i _. reflexivity. }
    rewrite E. ring.
  Qed.
End Sim.

(** ** relabelling is a similarity *)
Definition Pm (sg : nat -> nat) : rmat := fun i k => if Nat.eqb k (sg i) then 1 else 0.
Lemma rapp_Pm p sg x i : (sg i < p)%nat -> rsum p (fun k => Pm sg i k * x k) = x (sg i).
Proof.
  intros H. rewrite <- (rsum_delta p (sg i) x H). apply rsum_ext. intros k _. unfold Pm. destruct (Nat.eqb k (sg i)); ring.
Qed.
Lemma congr_Pm p sg S i j : (sg i < p)%nat -> (sg j < p)%nat -> congr p (Pm sg) S i j = S (sg i) (sg j).
Proof.
  intros Hi Hj. unfold congr. rewrite (rsum_ext p _ (fun k => Pm sg i k * S k (sg j))).
  - now apply (rapp_Pm p sg (fun k => S k (sg j))).
  - intros k _. rewrite (rsum_ext p _ (fun l => Pm sg j l * (Pm sg i k * S k l))) by (intros; ring).
    rewrite (rapp_Pm p sg (fun l => Pm sg i k * S k l) j Hj). reflexivity.
Qed.
Lemma reorders_onto p sg : reorders p sg -> forall i, (i < p)%nat -> exists k, (k < p)%nat /\ sg k = i.
Proof.
  intros [H1 H2] i Hi. assert (B : bSurjective p sg).
  { apply bInjective_bSurjective; [exact H1|]. intros x y Hx Hy. now apply H2. }
  destruct (B i Hi) as (k & Hk & E). eauto.
Qed.
Lemma Pm_similarity p sg : reorders p sg -> similarity p 1 (Pm sg).
Proof.
  intros HR. destruct HR as [H1 H2]. split; [lra|]. split.
  - intros i j Hi Hj. destruct (reorders_onto p sg (conj H1 H2) i Hi) as (k & Hk & Ek).
    unfold rmul, rT. rewrite (rsum_ext p _ (fun l => if Nat.eqb l k then rI i j else 0)).
    + rewrite (rsum_delta p k (fun _ => rI i j) Hk). ring.
    + intros l Hl. unfold Pm, rI. destruct (Nat.eqb_spec l k) as [->|N].
      * rewrite Ek, Nat.eqb_refl, (Nat.eqb_sym j i). destruct (Nat.eqb i j); ring.
      * destruct (Nat.eqb_spec i (sg l)) as [E|_]; [|ring]. exfalso. apply N. apply H2; auto. now rewrite Ek.
  - intros i j Hi Hj. unfold rmul, rT. rewrite (rapp_Pm p sg (fun k => Pm sg j k)) by auto. unfold Pm, rI.
    destruct (Nat.eqb_spec (sg i) (sg j)) as [E|N], (Nat.eqb_spec i j) as [E'|N']; try ring.
    + exfalso. apply N'. now apply H2.
    + subst. contradiction.
Qed.
Lemma follows_order p sg C P diff ys : reorders p sg ->
  follows p (Pm sg) (fun _ => 0) C P diff ys -> ignores_order p sg C P diff ys.
Proof.
  intros [H1 H2] (o & o' & m & S & E1 & E2 & E3 & E4 & E5 & E6). exists o, o', m, S. split; [exact E1|].
  assert (K : forall x, fv p (aff p (Pm sg) (fun _ => 0) x) = fv p (fun i => x (sg i))).
  { intros x. apply fv_ext. intros i Hi. unfold aff. rewrite rapp_Pm by auto. ring. }
  split; [|split; [exact E3|split; [exact E4|split]]].
  - replace (map (fv p) (map (fun (y : obs) i => y (sg i)) ys)) with (map (fv p) (map (aff p (Pm sg) (fun _ => 0)) ys)); [exact E2|].
    rewrite !map_map. apply map_ext. exact K.
  - rewrite E5. f_equal. destruct diff; apply K.
  - rewrite E6. f_equal. apply fm_ext. intros i j Hi Hj. now rewrite congr_Pm by auto.
Qed.

(** * C79 for the block estimators, C81: shifts *)
From Coq Require Import Reals ZArith String List Lia Lra Arith Bool.
From Verif Require Import Num Numpy BaseModel Spec ListLemmas LinalgModel Estimators RegistryModel RMat LinSpec Fin RealSpec RunFin EwaReal RunAvg EmpFacts Props_Emp
  ShrinkReal MomentReal FactorReal Spectral MatAlg Contracts LinalgReal RobustReal TylerReal BlockSpec BlockGeom BlockReal BlockRun BlockRun2 Props_Linalg Props_Moment
  StreamProofs Props_Stream SymSpec SymReal SymRun SymGeo SymPerm Props_Sym.
Import ListNotations.
Local Open Scope string_scope.
Local Open Scope R_scope.

(** ** C79: block estimators depend on the order only through the blocks *)
Definition keeps_blocks (p k : nat) (sg : nat -> nat) : Prop :=
  forall i j, (i < p)%nat -> (j < p)%nat -> (block_of p k (sg i) = block_of p k (sg j) <-> block_of p k i = block_of p k j).
Lemma keeps_eqb p k sg i j : keeps_blocks p k sg -> (i < p)%nat -> (j < p)%nat ->
  Nat.eqb (block_of p k (sg i)) (block_of p k (sg j)) = Nat.eqb (block_of p k i) (block_of p k j).
Proof.
  intros H Hi Hj. specialize (H i j Hi Hj).
  destruct (Nat.eqb_spec (block_of p k (sg i)) (block_of p k (sg j))), (Nat.eqb_spec (block_of p k i) (block_of p k j)); tauto.
Qed.
Lemma damped_Pm p k sg g S S' : reorders p sg -> keeps_blocks p k sg -> (forall i j, S' i j = S (sg i) (sg j)) ->
  meq p p (damped p k g S') (congr p (Pm sg) (damped p k g S)).
Proof.
  intros HS HK E i j Hi Hj. rewrite congr_Pm by (now apply (proj1 HS)). unfold damped. rewrite (keeps_eqb p k sg i j HK Hi Hj), E. reflexivity.
Qed.
Lemma cov_order sg r nb xs i j : ewa_cov r nb (map (fun (y : obs) i => y (sg i)) xs) i j = ewa_cov r nb xs (sg i) (sg j).
Proof. apply (ewa_ext_map r nb (fun (y : obs) i => y (sg i)) sg xs (fun _ _ => eq_refl)). Qed.
Lemma cov_Pm p sg r nb xs : reorders p sg -> meq p p (ewa_cov r nb (map (fun (y : obs) i => y (sg i)) xs)) (congr p (Pm sg) (ewa_cov r nb xs)).
Proof. intros HS i j Hi Hj. rewrite cov_order. symmetry. apply congr_Pm; now apply (proj1 HS). Qed.
Lemma congr_Pm_fm p sg B : reorders p sg -> fm p p (congr p (Pm sg) B) = fm p p (fun i j => B (sg i) (sg j)).
Proof. intros HS. apply fm_ext. intros i j Hi Hj. apply congr_Pm; now apply (proj1 HS). Qed.
Lemma cross_sum_perm p k sg F : reorders p sg -> keeps_blocks p k sg ->
  cross_sum p k (fun i j => F (sg i) (sg j)) = cross_sum p k F.
Proof.
  intros HS HK. unfold cross_sum.
  rewrite <- (rsum_perm p sg HS (fun i => rsum p (fun j => if Nat.eqb (block_of p k i) (block_of p k j) then 0 else F i j))).
  apply rsum_ext. intros i Hi.
  rewrite <- (rsum_perm p sg HS (fun j => if Nat.eqb (block_of p k (sg i)) (block_of p k j) then 0 else F (sg i) j)).
  apply rsum_ext. intros j Hj. now rewrite (keeps_eqb p k sg i j HK Hi Hj).
Qed.

Theorem C79_order_block p sg L r n_blocks diff ys : lawful L -> (1 <= p)%nat -> r <> 0 -> reorders p sg -> keeps_blocks p (blocks n_blocks p) sg ->
  seen diff ys <> [] -> ignores_order p sg (Block L) (BLK r n_blocks) diff ys.
Proof.
  intros HL Hp Hr HS HK Hx.
  destruct (Block_run L HL p r n_blocks diff _ _ Hp Hr (observes_seen p diff ys) Hx) as (o & P & E1 & _ & _ & E3 & E4 & _).
  destruct (Block_run L HL p r n_blocks diff _ _ Hp Hr (seen_sel p sg diff ys) (map_nil_neq _ _ Hx)) as (o' & P' & F1 & _ & _ & F3 & F4 & _).
  eexists o, o', _, _. split; [exact E1|]. split; [exact F1|]. split; [exact E3|]. split; [exact E4|].
  rewrite F3, F4. split; f_equal; [apply fv_ext; intros; apply mean_order|]. rewrite <- (congr_Pm_fm p sg) by auto. apply fm_meq.
  apply (mpd_congr p (Pm sg) (Pm_similarity p sg HS) Hp L HL). apply damped_Pm; auto. intros. apply cov_order.
Qed.
Theorem C79_order_schur p sg L r n_blocks gamma interp diff ys : lawful L -> (1 <= p)%nat -> r <> 0 -> (1 <= n_blocks)%Z ->
  reorders p sg -> keeps_blocks p (blocks n_blocks p) sg ->
  seen diff ys <> [] -> ignores_order p sg (Schur L) (SCH r n_blocks gamma interp) diff ys.
Proof.
  intros HL Hp Hr Hn HS HK Hx. destruct (string_dec interp "geodesic") as [->|Ni].
  - destruct (Schur_geodesic L HL p r n_blocks gamma diff _ _ Hp Hr Hn (observes_seen p diff ys) Hx) as (o & E1 & _ & E3 & E4).
    destruct (Schur_geodesic L HL p r n_blocks gamma diff _ _ Hp Hr Hn (seen_sel p sg diff ys) (map_nil_neq _ _ Hx)) as (o' & F1 & _ & F3 & F4).
    eexists o, o', _, _. split; [exact E1|]. split; [exact F1|]. split; [exact E3|]. split; [exact E4|].
    rewrite F3, F4. split; f_equal; [apply fv_ext; intros; apply mean_order|]. rewrite <- (congr_Pm_fm p sg) by auto. apply fm_meq.
    apply (gstep_congr p (Pm sg) (Pm_similarity p sg HS) Hp L HL); apply (mpd_congr p (Pm sg) (Pm_similarity p sg HS) Hp L HL).
    + apply damped_Pm; auto. intros. apply cov_order.
    + now apply cov_Pm.
  - destruct (Schur_linear L HL p r n_blocks gamma interp diff _ _ Hp Hr Hn Ni (observes_seen p diff ys) Hx) as (o & E1 & _ & E3 & E4).
    destruct (Schur_linear L HL p r n_blocks gamma interp diff _ _ Hp Hr Hn Ni (seen_sel p sg diff ys) (map_nil_neq _ _ Hx)) as (o' & F1 & _ & F3 & F4).
    eexists o, o', _, _. split; [exact E1|]. split; [exact F1|]. split; [exact E3|]. split; [exact E4|].
    rewrite F3, F4. split; f_equal; [apply fv_ext; intros; apply mean_order|]. rewrite <- (congr_Pm_fm p sg) by auto. apply fm_meq.
    apply (mpd_congr p (Pm sg) (Pm_similarity p sg HS) Hp L HL). apply damped_Pm; auto. intros. apply cov_order.
Qed.
Theorem C79_order_schur_ledoit_wolf p sg L r n_blocks diff ys : lawful L -> (1 <= p)%nat -> r <> 0 -> (1 <= n_blocks)%Z ->
  reorders p sg -> keeps_blocks p (blocks n_blocks p) sg ->
  seen diff ys <> [] -> ignores_order p sg (SchurLW L) (BLK r n_blocks) diff ys.
Proof.
  intros HL Hp Hr Hn HS HK Hx.
  destruct (SchurLW_run L HL p r n_blocks diff _ _ Hp Hr Hn (observes_seen p diff ys) Hx) as (o & E1 & _ & E3 & _ & E4).
  destruct (SchurLW_run L HL p r n_blocks diff _ _ Hp Hr Hn (seen_sel p sg diff ys) (map_nil_neq _ _ Hx)) as (o' & F1 & _ & F3 & _ & F4).
  eexists o, o', _, _. split; [exact E1|]. split; [exact F1|]. split; [exact E3|]. split; [exact E4|].
  rewrite F3, F4. split; f_equal; [apply fv_ext; intros; apply mean_order|]. rewrite <- (congr_Pm_fm p sg) by auto. apply fm_meq.
  apply (mpd_congr p (Pm sg) (Pm_similarity p sg HS) Hp L HL).
  set (k := blocks n_blocks p) in *. set (xs := seen diff ys) in *.
  assert (EG : slw_g p k r (ewsum r (burn_len r) (slw_stat p k r (burn_len r)) (map (fun (y : obs) i => y (sg i)) xs))
                 (ewa_cov r (burn_len r) (map (fun (y : obs) i => y (sg i)) xs)) =
               slw_g p k r (ewsum r (burn_len r) (slw_stat p k r (burn_len r)) xs) (ewa_cov r (burn_len r) xs)).
  { assert (E2 : ewsum r (burn_len r) (slw_stat p k r (burn_len r)) (map (fun (y : obs) i => y (sg i)) xs) = ewsum r (burn_len r) (slw_stat p k r (burn_len r)) xs).
    { unfold ewsum. rewrite map_length. apply rsum_ext. intros n Hln.
      assert (E : stat (slw_stat p k r (burn_len r)) (map (fun (y : obs) i => y (sg i)) xs) (burn_len r + n) = stat (slw_stat p k r (burn_len r)) xs (burn_len r + n)).
      { unfold stat. rewrite firstn_map. unfold nthobs. pose proof (map_nth (fun (y : obs) i => y (sg i)) xs (fun _ => 0) (burn_len r + n)) as EN. cbv beta in EN. rewrite EN. clear EN.
        unfold slw_stat, slw_q.
        etransitivity; [|exact (cross_sum_perm p k sg (fun i j =>
           ((nth (burn_len r + n) xs (fun _ => 0) i - ewa_mean r (burn_len r) (firstn (burn_len r + n) xs) i) * (nth (burn_len r + n) xs (fun _ => 0) j - ewa_mean r (burn_len r) (firstn (burn_len r + n) xs) j) - ewa_cov r (burn_len r) (firstn (burn_len r + n) xs) i j) *
           ((nth (burn_len r + n) xs (fun _ => 0) i - ewa_mean r (burn_len r) (firstn (burn_len r + n) xs) i) * (nth (burn_len r + n) xs (fun _ => 0) j - ewa_mean r (burn_len r) (firstn (burn_len r + n) xs) j) - ewa_cov r (burn_len r) (firstn (burn_len r + n) xs) i j)) HS HK)].
        apply cross_sum_ext. intros i j _ _. now rewrite !mean_order, !cov_order. }
      now rewrite E. }
    unfold slw_g. rewrite E2.
    assert (E3' : cross_sum p k (fun i j => ewa_cov r (burn_len r) (map (fun (y : obs) i => y (sg i)) xs) i j * ewa_cov r (burn_len r) (map (fun (y : obs) i => y (sg i)) xs) i j) =
                 cross_sum p k (fun i j => ewa_cov r (burn_len r) xs i j * ewa_cov r (burn_len r) xs i j)).
    { etransitivity; [|exact (cross_sum_perm p k sg (fun i j => ewa_cov r (burn_len r) xs i j * ewa_cov r (burn_len r) xs i j) HS HK)].
      apply cross_sum_ext. intros i j _ _. now rewrite !cov_order. }
    now rewrite E3'. }
  rewrite EG. apply damped_Pm; auto. intros. apply cov_order.
Qed.
Lemma Ok_fm p B B' : Ok (fm p p B) = Ok (fm p p B') -> forall i j, (i < p)%nat -> (j < p)%nat -> B i j = B' i j.
Proof. intros E i j Hi Hj. apply (fm_inj p p B B' i j); auto. congruence. Qed.
(** ... but a reordering that moves variables between blocks changes the estimate. *)
Definition ord_ex : list obs :=
  map (fun l i => nth i l 0) [[1; 1; 1]; [-1; 1; -1]; [0; -1; 1]; [0; -1; -1]].
Definition swap12 (i : nat) : nat := match i with 1%nat => 2%nat | 2%nat => 1%nat | _ => i end.
Lemma swap12_reorders : reorders 3 swap12.
Proof.
  split; [intros [|[|[|i]]]; simpl; lia|]. intros [|[|[|i]]] [|[|[|j]]] Hi Hj; simpl; intros; try lia.
Qed.
Lemma ord_cov r : (forall i j, (i < 3)%nat -> (j < 3)%nat -> ewa_cov r (burn_len r) ord_ex i j =
  nth j (nth i [[1/2; 0; 1/2]; [0; 1; 0]; [1/2; 0; 1]] []) 0).
Proof.
  intros i j Hi Hj. pose proof (burn_len_bounds r) as Hb. unfold ewa_cov, burn, after. rewrite firstn_all2, skipn_all2 by (simpl; lia). rewrite ewc_nil.
  unfold pcov_of, mean_of, ord_ex. cbn [map lsum length]. destruct i as [|[|[|i]]]; destruct j as [|[|[|j]]]; try lia; simpl; field.
Qed.
Lemma damped_ord_bb g S : 0 <= g < 1 -> S 0%nat 0%nat = 1/2 -> S 1%nat 1%nat = 1 -> S 2%nat 2%nat = 1 -> sym 3 S ->
  (S 0%nat 1%nat = 0 /\ S 0%nat 2%nat = g / 2 \/ S 0%nat 1%nat = 1/2 /\ S 0%nat 2%nat = 0) -> S 1%nat 2%nat = 0 -> bounded_below 3 e8 S.
Proof.
  intros Hg E0 E1 E2 HS D E12. split; auto. intros v. unfold qf, rdot. cbn [rsum].
  rewrite (HS 1%nat 0%nat), (HS 2%nat 0%nat), (HS 2%nat 1%nat) by lia. rewrite E0, E1, E2, E12.
  assert (Q : 0 < e8 < 1 / 10) by (unfold e8; lra).
  set (a := v 0%nat). set (b := v 1%nat). set (c := v 2%nat).
  destruct D as [[-> ->]|[-> ->]].
  - assert (0 <= (a * 1 + c * g) * (a * 1 + c * g)) by apply Rle_0_sqr.
    assert (0 <= (a + c) * (a + c)) by apply Rle_0_sqr. assert (0 <= (a - c) * (a - c)) by apply Rle_0_sqr.
    assert (0 <= (10 * a + 7 * c) * (10 * a + 7 * c)) by apply Rle_0_sqr. assert (0 <= (10 * a - 7 * c) * (10 * a - 7 * c)) by apply Rle_0_sqr.
    assert (A2 : 0 <= a * a) by apply Rle_0_sqr. assert (B2 : 0 <= b * b) by apply Rle_0_sqr. assert (C2 : 0 <= c * c) by apply Rle_0_sqr.
    assert (T : e8 * (a * a + b * b + c * c) <= (a * a + b * b + c * c) / 10) by nra.
    assert (K : - (g * (a * c)) <= (a * a * (4/10) + c * c * (9/10))).
    { assert (- (a * c) <= a * a * (4/10) + c * c * (9/10)) by nra. assert (0 <= a * a * (4/10) + c * c * (9/10)) by nra.
      destruct (Rle_dec 0 (a * c)); nra. }
    nra.
  - assert (0 <= (10 * a + 7 * b) * (10 * a + 7 * b)) by apply Rle_0_sqr.
    assert (A2 : 0 <= a * a) by apply Rle_0_sqr. assert (B2 : 0 <= b * b) by apply Rle_0_sqr. assert (C2 : 0 <= c * c) by apply Rle_0_sqr.
    assert (T : e8 * (a * a + b * b + c * c) <= (a * a + b * b + c * c) / 10) by nra. 
    nra.
Qed.
Lemma ord_schur_diff L g r : lawful L -> 0 <= g < 1 ->
  mpd L 3 (damped 3 2 g (ewa_cov r (burn_len r) ord_ex)) 0%nat 2%nat = g / 2 /\
  mpd L 3 (damped 3 2 g (ewa_cov r (burn_len r) (map (fun (y : obs) i => y (swap12 i)) ord_ex))) 0%nat 1%nat = 1 / 2.
Proof.
  intros HL Hg. set (S := ewa_cov r (burn_len r) ord_ex). set (S' := ewa_cov r (burn_len r) (map (fun (y : obs) i => y (swap12 i)) ord_ex)).
  assert (ES : forall i j, (i < 3)%nat -> (j < 3)%nat -> S i j = nth j (nth i [[1/2; 0; 1/2]; [0; 1; 0]; [1/2; 0; 1]] []) 0) by apply ord_cov.
  assert (ES' : forall i j, S' i j = S (swap12 i) (swap12 j)) by (intros; apply cov_order).
  assert (SS : sym 3 S) by apply sym_ewa_cov. assert (SS' : sym 3 S') by apply sym_ewa_cov.
  assert (B0 : block_of 3 2 0 = 0%nat) by reflexivity. assert (B1 : block_of 3 2 1 = 0%nat) by reflexivity. assert (B2 : block_of 3 2 2 = 1%nat) by reflexivity.
  split.
  - assert (B : bounded_below 3 e8 (damped 3 2 g S)).
    { apply (damped_ord_bb g); auto using damped_sym; unfold damped; rewrite ?B0, ?B1, ?B2; cbn [Nat.eqb]; rewrite ?ES by lia; simpl; lra. }
    assert (SD : meq 3 3 (symm (damped 3 2 g S)) (damped 3 2 g S)) by (apply symm_id, damped_sym; auto).
    rewrite (mpd_fix L HL 3 (damped 3 2 g S) ltac:(lia) (bb_ext 3 e8 _ _ (meq_sym _ _ _ _ SD) B)) by lia.
    rewrite SD by lia. unfold damped. rewrite B0, B2, ES by lia. simpl. field.
  - assert (B : bounded_below 3 e8 (damped 3 2 g S')).
    { apply (damped_ord_bb g); auto using damped_sym; unfold damped; rewrite ?B0, ?B1, ?B2; cbn [Nat.eqb]; rewrite ?ES'; cbn [swap12]; rewrite ?ES by lia; simpl; lra. }
    assert (SD : meq 3 3 (symm (damped 3 2 g S')) (damped 3 2 g S')) by (apply symm_id, damped_sym; auto).
    rewrite (mpd_fix L HL 3 (damped 3 2 g S') ltac:(lia) (bb_ext 3 e8 _ _ (meq_sym _ _ _ _ SD) B)) by lia.
    rewrite SD by lia. unfold damped. rewrite B0, B1. cbn [Nat.eqb]. rewrite ES'. cbn [swap12]. rewrite ES by lia. simpl. field.
Qed.
Theorem C79_block_order_matters L r : lawful L -> r <> 0 ->
  order_matters 3 (Block L) (BLK r 2) false.
Proof.
  intros HL Hr.   destruct (ord_schur_diff L 0 r HL ltac:(lra)) as [D1 D2].
  destruct (Block_run L HL 3 r 2 false _ _ ltac:(lia) Hr (observes_seen 3 false ord_ex) ltac:(discriminate)) as (u & P & G1 & _ & _ & _ & G4 & _).
  destruct (Block_run L HL 3 r 2 false _ _ ltac:(lia) Hr (seen_sel 3 swap12 false ord_ex) ltac:(discriminate)) as (u' & P' & H1 & _ & _ & _ & H4 & _).
  eexists swap12, ord_ex, u, u', _, _, 0%nat, 1%nat. split; [apply swap12_reorders|]. split; [exact G1|]. split; [exact H1|]. split; [exact G4|]. split; [exact H4|].
  split; [lia|]. split; [lia|]. cbn [swap12]. unfold seen in *. change (blocks 2 3) with 2%nat in *. rewrite D1, D2. lra.
Qed.
Theorem C79_schur_order_matters L r gamma interp : lawful L -> r <> 0 -> 0 <= gamma < 1 -> interp <> "geodesic" ->
  order_matters 3 (Schur L) (SCH r 2 gamma interp) false.
Proof.
  intros HL Hr Hg Hi.   destruct (ord_schur_diff L gamma r HL Hg) as [D1 D2].
  destruct (Schur_linear L HL 3 r 2 gamma interp false _ _ ltac:(lia) Hr ltac:(lia) Hi (observes_seen 3 false ord_ex) ltac:(discriminate)) as (u & G1 & _ & _ & G4).
  destruct (Schur_linear L HL 3 r 2 gamma interp false _ _ ltac:(lia) Hr ltac:(lia) Hi (seen_sel 3 swap12 false ord_ex) ltac:(discriminate)) as (u' & H1 & _ & _ & H4).
  eexists swap12, ord_ex, u, u', _, _, 0%nat, 1%nat. split; [apply swap12_reorders|]. split; [exact G1|]. split; [exact H1|]. split; [exact G4|]. split; [exact H4|].
  split; [lia|]. split; [lia|]. cbn [swap12]. unfold seen in *. change (blocks 2 3) with 2%nat in *. rewrite D1, D2. lra.
Qed.

(** ** C81: shifting the stream *)
(** On differences every class of the registry is shift invariant, in everything that can be read off. *)
Lemma differences_shift p (b : obs) (ys : list obs) :
  differences (map (fv p) (map (fun (y : obs) i => y i + b i) ys)) = differences (map (fv p) ys).
Proof.
  induction ys as [|x [|y ys] IH]; [reflexivity|reflexivity|]. cbn [map] in *.
  change (zipw nsub (fv p (fun i => y i + b i)) (fv p (fun i => x i + b i)) :: differences (fv p (fun i => y i + b i) :: map (fv p) (map (fun (y : obs) i => y i + b i) ys)) =
          zipw nsub (fv p y) (fv p x) :: differences (fv p y :: map (fv p) ys)).
  f_equal; [|exact IH].
  assert (K : forall f g : obs, zipw (@nsub NumX) (fv p f) (fv p g) = fv p (fun i => f i - g i)).
  { intros f g. unfold fv. now rewrite zipw_tab. }
  rewrite !K. apply fv_ext. intros i _. ring.
Qed.
Theorem C81_differences_any_class (L : LinAlg NumX) fuel k : In k (registry L fuel) ->
  forall P p b (ys : list obs),
    let a := partial_fit (new (C := rg_class k) (rg_with_diff k P true)) (In2 (map (fv p) ys)) in
    let a' := partial_fit (new (C := rg_class k) (rg_with_diff k P true)) (In2 (map (fv p) (map (fun (y : obs) i => y i + b i) ys))) in
    snd a = snd a' /\ same_fitted L (fst a) (fst a').
Proof.
  intros Hk P p b ys. cbv zeta.
  assert (R1 : rows_of_length p (map (fv p) ys)) by (apply Forall_forall; intros v Hv; apply in_map_iff in Hv; destruct Hv as (y & <- & _); apply fv_length).
  assert (R2 : rows_of_length p (map (fv p) (map (fun (y : obs) i => y i + b i) ys)))
    by (apply Forall_forall; intros v Hv; apply in_map_iff in Hv; destruct Hv as (y & <- & _); apply fv_length).
  destruct (C03_diff_is_differencing NumX L fuel k Hk P p _ R1) as (E1 & (a1 & a2 & a3 & a4 & a5 & a6 & a7) & _).
  destruct (C03_diff_is_differencing NumX L fuel k Hk P p _ R2) as (F1 & (b1 & b2 & b3 & b4 & b5 & b6 & b7) & _).
  rewrite differences_shift in F1, b1, b2, b3, b4, b5, b6, b7.
  split; [congruence|]. repeat split; try congruence; intros X; [rewrite a6, b6|rewrite a7, b7]; reflexivity.
Qed.

Lemma rI_similarity p : similarity p 1 rI.
Proof.
  assert (T : meq p p (rT rI) rI) by (intros i j _ _; apply rI_sym).
  split; [lra|]. split; rewrite T, mul_I_l; intros i j _ _; ring.
Qed.
Lemma rapp_rI p x i : (i < p)%nat -> rsum p (fun k => rI i k * x k) = x i.
Proof. intros Hi. exact (rapp_I p x i Hi). Qed.
Lemma follows_shift p b C P diff ys : follows p rI b C P diff ys -> ignores_shift p b C P diff ys.
Proof.
  intros (o & o' & m & S & E1 & E2 & E3 & E4 & E5 & E6). exists o, o', m, S. split; [exact E1|].
  split; [|split; [exact E3|split; [exact E4|split]]].
  - replace (map (fv p) (map (fun (y : obs) i => y i + b i) ys)) with (map (fv p) (map (aff p rI b) ys)); [exact E2|].
    rewrite !map_map. apply map_ext. intros y. apply fv_ext. intros i Hi. unfold aff. now rewrite rapp_rI.
  - rewrite E5. f_equal. apply fv_ext. intros i Hi. unfold aff. rewrite rapp_rI by auto. now destruct diff.
  - rewrite E6. f_equal. apply fm_meq. intros i j Hi Hj. rewrite congr_mul.
    assert (T : meq p p (rT rI) rI) by (intros k l _ _; apply rI_sym).
    assert (K : meq p p (rmul p rI (rmul p S (rT rI))) S) by (rewrite T, mul_I_l, mul_I_r; reflexivity). now apply K.
Qed.
Theorem C81_empirical_shift p b diff ys : seen diff ys <> [] -> ignores_shift p b Empirical mkEmpP diff ys.
Proof. intros. now apply follows_shift, C80_empirical_follows. Qed.
Theorem C81_ewa_shift p b r diff ys : r <> 0 -> seen diff ys <> [] -> ignores_shift p b Ewa (EWA r) diff ys.
Proof. intros. now apply follows_shift, C80_ewa_follows. Qed.
Theorem C81_ledoit_wolf_shift p b r diff ys : (1 <= p)%nat -> r <> 0 -> seen diff ys <> [] -> ignores_shift p b LedoitWolf (EWA r) diff ys.
Proof. intros. apply follows_shift, (C80_ledoit_wolf_follows p 1); auto using rI_similarity. Qed.
Theorem C81_oas_shift p b r diff ys : (1 <= p)%nat -> r <> 0 -> seen diff ys <> [] -> ignores_shift p b OAS (EWA r) diff ys.
Proof. intros. apply follows_shift, (C80_oas_follows p 1); auto using rI_similarity. Qed.
Theorem C81_huber_shift p b L r c diff ys : lawful L -> (1 <= p)%nat -> 0 < r <= 1 -> seen diff ys <> [] -> ignores_shift p b (Huber L) (HUB r c) diff ys.
Proof. intros. apply follows_shift, (C80_huber_follows L p 1); auto using rI_similarity. Qed.
Theorem C81_adaptive_shift p b L r mx diff ys : lawful L -> (1 <= p)%nat -> r <> 0 -> seen diff ys <> [] -> ignores_shift p b (Adaptive L) (ADA r mx) diff ys.
Proof. intros. apply follows_shift, (C80_adaptive_follows L p 1); auto using rI_similarity. Qed.
Theorem C81_geodesic_shift p b L r diff ys : lawful L -> (1 <= p)%nat -> r <> 0 -> seen diff ys <> [] -> ignores_shift p b (Geodesic L) (EWA r) diff ys.
Proof. intros. apply follows_shift, (C80_geodesic_follows L p); auto using rI_similarity. Qed.

(** the observed stream of a shifted stream, its mean and covariance *)
Definition sh (b : obs) (y : obs) : obs := fun i => y i + b i.
Lemma seen_shift p b diff ys :
  observes p diff (map (fv p) (map (fun (y : obs) i => y i + b i) ys)) (map (sh (if diff then fun _ => 0 else b)) (seen diff ys)).
Proof.
  destruct diff; [|apply observes_plain]. cbn [seen].
  apply (observes_ext p true _ (rdiffs (map (fun (y : obs) i => y i + b i) ys))); [|apply observes_diff].
  induction ys as [|x [|y ys] IH]; [constructor|constructor|]. cbn [map] in *.
  change (Forall2 (fun a a' => forall i : nat, a i = a' i)
    ((fun i => (y i + b i) - (x i + b i)) :: rdiffs ((fun i => y i + b i) :: map (fun (y : obs) i => y i + b i) ys))
    (sh (fun _ => 0) (fun i => y i - x i) :: map (sh (fun _ => 0)) (rdiffs (y :: ys)))).
  constructor; [intros i; unfold sh; ring|exact IH].
Qed.
Lemma mean_shift r nb b xs i : (1 <= nb)%nat -> xs <> [] -> ewa_mean r nb (map (sh b) xs) i = ewa_mean r nb xs i + b i.
Proof.
  intros Hn. induction xs as [|x xs IH] using rev_ind; [congruence|]. intros _. rewrite map_app. cbn [map]. rewrite !ewa_step_eq, map_length.
  destruct xs as [|y xs].
  - cbn [length map]. destruct (Nat.ltb_spec 0 nb); [|lia]. unfold sh. rewrite ewa_mean_nil. cbn [INR]. field.
  - rewrite IH by discriminate. unfold sh. destruct (Nat.ltb (length (y :: xs)) nb); [field; apply INR_S_nz|ring].
Qed.
Lemma cov_shift r nb b xs i j : (1 <= nb)%nat -> ewa_cov r nb (map (sh b) xs) i j = ewa_cov r nb xs i j.
Proof.
  intros Hn. induction xs as [|x xs IH] using rev_ind; [reflexivity|]. rewrite map_app. cbn [map]. rewrite !ewa_cov_step. cbv zeta. rewrite map_length, IH.
  destruct xs as [|y xs].
  - cbn [length map]. destruct (Nat.ltb_spec 0 nb); [|lia]. unfold sh. rewrite !ewa_mean_nil. cbn [INR]. field.
  - rewrite !mean_shift by (auto; discriminate). unfold sh. destruct (Nat.ltb (length (y :: xs)) nb); [field; apply INR_S_nz|ring].
Qed.
Lemma dev_shift r nb b xs x i : (1 <= nb)%nat -> xs <> [] -> dev r nb (map (sh b) xs) (sh b x) i = dev r nb xs x i.
Proof. intros Hn Hx. unfold dev. rewrite mean_shift by auto. unfold sh. ring. Qed.
Lemma sh_mean (diff : bool) (b m : obs) p : fv p (fun i => m i + (if diff then (fun _ : nat => 0) else b) i) = fv p (fun i => m i + (if diff then 0 else b i)).
Proof. apply fv_ext. intros. now destruct diff. Qed.

Theorem C81_shrunk_shift p b r delta target diff ys : (1 <= p)%nat -> r <> 0 -> seen diff ys <> [] ->
  ignores_shift p b Shrunk (SHR r delta target) diff ys.
Proof.
  intros Hp Hr Hx. destruct (string_dec target "identity") as [->|Ht].
  - apply follows_shift, (C80_shrunk_identity_follows p 1); auto using rI_similarity.
  - pose proof (burn_len_bounds r) as Hb.
    destruct (Shrunk_cc_run p r delta target diff _ _ Hp Hr Ht (observes_seen p diff ys) Hx) as (o & E1 & _ & E3 & E4 & _).
    destruct (Shrunk_cc_run p r delta target diff _ _ Hp Hr Ht (seen_shift p b diff ys) (map_nil_neq _ _ Hx)) as (o' & F1 & _ & F3 & F4 & _).
    eexists o, o', _, _. split; [exact E1|]. split; [exact F1|]. split; [exact E3|]. split; [exact E4|].
    rewrite F3, F4, <- sh_mean. split; f_equal; [apply fv_ext; intros; apply mean_shift; auto; lia|]. apply fm_ext. intros i j Hi Hj.
    set (b' := if diff then fun _ => 0 else b). assert (K : forall i j, ewa_cov r (burn_len r) (map (sh b') (seen diff ys)) i j = ewa_cov r (burn_len r) (seen diff ys) i j) by (intros; apply cov_shift; lia).
    rewrite K. f_equal. f_equal. unfold cc_target, rbar, vol. destruct (Nat.eqb i j); rewrite !K; [reflexivity|]. f_equal. f_equal.
    unfold msk. apply rsum_ext. intros k _. apply rsum_ext. intros l _. now rewrite !K.
Qed.
Theorem C81_block_shift p b L r n_blocks diff ys : lawful L -> (1 <= p)%nat -> r <> 0 -> seen diff ys <> [] ->
  ignores_shift p b (Block L) (BLK r n_blocks) diff ys.
Proof.
  intros HL Hp Hr Hx. pose proof (burn_len_bounds r) as Hb.
  destruct (Block_run L HL p r n_blocks diff _ _ Hp Hr (observes_seen p diff ys) Hx) as (o & P & E1 & _ & _ & E3 & E4 & _).
  destruct (Block_run L HL p r n_blocks diff _ _ Hp Hr (seen_shift p b diff ys) (map_nil_neq _ _ Hx)) as (o' & P' & F1 & _ & _ & F3 & F4 & _).
  eexists o, o', _, _. split; [exact E1|]. split; [exact F1|]. split; [exact E3|]. split; [exact E4|].
  rewrite F3, F4, <- sh_mean. split; f_equal; [apply fv_ext; intros; apply mean_shift; auto; lia|]. f_equal.
  apply mpd_ext. intros i j _ _. unfold damped. rewrite !cov_shift by lia. reflexivity.
Qed.
Theorem C81_schur_shift p b L r n_blocks gamma interp diff ys : lawful L -> (1 <= p)%nat -> r <> 0 -> (1 <= n_blocks)%Z -> seen diff ys <> [] ->
  ignores_shift p b (Schur L) (SCH r n_blocks gamma interp) diff ys.
Proof.
  intros HL Hp Hr Hn Hx. pose proof (burn_len_bounds r) as Hb. destruct (string_dec interp "geodesic") as [->|Ni].
  - destruct (Schur_geodesic L HL p r n_blocks gamma diff _ _ Hp Hr Hn (observes_seen p diff ys) Hx) as (o & E1 & _ & E3 & E4).
    destruct (Schur_geodesic L HL p r n_blocks gamma diff _ _ Hp Hr Hn (seen_shift p b diff ys) (map_nil_neq _ _ Hx)) as (o' & F1 & _ & F3 & F4).
    eexists o, o', _, _. split; [exact E1|]. split; [exact F1|]. split; [exact E3|]. split; [exact E4|].
    rewrite F3, F4, <- sh_mean. split; f_equal; [apply fv_ext; intros; apply mean_shift; auto; lia|]. f_equal. f_equal.
    + apply mpd_ext. intros i j _ _. unfold damped. rewrite !cov_shift by lia. reflexivity.
    + apply mpd_ext. intros i j _ _. apply cov_shift; lia.
  - destruct (Schur_linear L HL p r n_blocks gamma interp diff _ _ Hp Hr Hn Ni (observes_seen p diff ys) Hx) as (o & E1 & _ & E3 & E4).
    destruct (Schur_linear L HL p r n_blocks gamma interp diff _ _ Hp Hr Hn Ni (seen_shift p b diff ys) (map_nil_neq _ _ Hx)) as (o' & F1 & _ & F3 & F4).
    eexists o, o', _, _. split; [exact E1|]. split; [exact F1|]. split; [exact E3|]. split; [exact E4|].
    rewrite F3, F4, <- sh_mean. split; f_equal; [apply fv_ext; intros; apply mean_shift; auto; lia|]. f_equal.
    apply mpd_ext. intros i j _ _. unfold damped. rewrite !cov_shift by lia. reflexivity.
Qed.
Theorem C81_schur_ledoit_wolf_shift p b L r n_blocks diff ys : lawful L -> (1 <= p)%nat -> r <> 0 -> (1 <= n_blocks)%Z -> seen diff ys <> [] ->
  ignores_shift p b (SchurLW L) (BLK r n_blocks) diff ys.
Proof.
  intros HL Hp Hr Hn Hx. pose proof (burn_len_bounds r) as Hb.
  destruct (SchurLW_run L HL p r n_blocks diff _ _ Hp Hr Hn (observes_seen p diff ys) Hx) as (o & E1 & _ & E3 & _ & E4).
  destruct (SchurLW_run L HL p r n_blocks diff _ _ Hp Hr Hn (seen_shift p b diff ys) (map_nil_neq _ _ Hx)) as (o' & F1 & _ & F3 & _ & F4).
  eexists o, o', _, _. split; [exact E1|]. split; [exact F1|]. split; [exact E3|]. split; [exact E4|].
  rewrite F3, F4, <- sh_mean. split; f_equal; [apply fv_ext; intros; apply mean_shift; auto; lia|]. f_equal.
  set (b' := if diff then fun _ => 0 else b). set (xs := seen diff ys) in *. set (k := blocks n_blocks p).
  assert (K : forall xs i j, ewa_cov r (burn_len r) (map (sh b') xs) i j = ewa_cov r (burn_len r) xs i j) by (intros; apply cov_shift; lia).
  assert (EP : ewsum r (burn_len r) (slw_stat p k r (burn_len r)) (map (sh b') xs) = ewsum r (burn_len r) (slw_stat p k r (burn_len r)) xs).
  { unfold ewsum. rewrite map_length. apply rsum_ext. intros n Hln. f_equal.
    unfold stat. rewrite firstn_map. unfold nthobs. rewrite (nth_indep _ _ (sh b' (fun _ => 0))) by (rewrite map_length; lia). rewrite map_nth.
    unfold slw_stat, slw_q. apply cross_sum_ext. intros i j _ _.
    assert (Nz : firstn (burn_len r + n) xs <> []).
    { destruct xs as [|y xs']; [congruence|]. destruct (burn_len r + n)%nat eqn:E; [lia|discriminate]. }
    rewrite !K, !mean_shift by (auto; lia). unfold sh. ring. }
  apply mpd_ext. intros i j _ _. rewrite EP. unfold damped. rewrite !K.
  rewrite (slw_g_ext p k r _ (ewa_cov r (burn_len r) (map (sh b') xs)) (ewa_cov r (burn_len r) xs)) by (intros u v _ _; apply K). reflexivity.
Qed.

(** Estimators whose first innovation is taken about 0 remember where the origin was: the first observation's
    square enters the variance, with a weight that decays geometrically after the burn-in. *)
Definition first_weight (r : R) (nb n : nat) : R := (1 - r) ^ (n - nb) / INR (Nat.min n nb).
Lemma first_weight_S r nb n : (1 <= nb)%nat -> (1 <= n)%nat ->
  first_weight r nb (S n) = if Nat.ltb n nb then first_weight r nb n * (INR n / INR (S n)) else (1 - r) * first_weight r nb n.
Proof.
  intros Hb Hn. unfold first_weight. destruct (Nat.ltb_spec n nb).
  - replace (S n - nb)%nat with 0%nat by lia. replace (n - nb)%nat with 0%nat by lia. rewrite !Nat.min_l by lia. cbn [pow].
    field. split; [apply INR_S_nz|apply not_0_INR; lia].
  - replace (S n - nb)%nat with (S (n - nb)) by lia. rewrite !Nat.min_r by lia. cbn [pow]. field. apply not_0_INR. lia.
Qed.
Lemma innov_shift r nb b x xs i j : (1 <= nb)%nat ->
  dev_cov r nb (map (sh b) (x :: xs)) i j =
  dev_cov r nb (x :: xs) i j + first_weight r nb (S (length xs)) * ((x i + b i) * (x j + b j) - x i * x j).
Proof.
  intros Hb. unfold dev_cov. induction xs as [|y xs IH] using rev_ind.
  - change (map (sh b) [x]) with ([] ++ [sh b x])%list. change [x] with ([] ++ [x])%list. rewrite !rw_avg_snoc. cbn [length app map].
    destruct (Nat.ltb_spec 0 nb); [|lia]. rewrite !rw_avg_nil. unfold dev. rewrite !ewa_mean_nil. unfold sh, first_weight.
    replace (1 - nb)%nat with 0%nat by lia. rewrite Nat.min_l by lia. cbn [pow INR]. field.
  - change (x :: (xs ++ [y]))%list with ((x :: xs) ++ [y])%list. rewrite map_app. cbn [map]. rewrite !rw_avg_snoc. cbn [map] in IH. rewrite IH.
    change (sh b x :: map (sh b) xs) with (map (sh b) (x :: xs)). rewrite !dev_shift by (auto; discriminate). rewrite map_length, app_length. cbn [length].
    replace (S (length xs + 1)) with (S (S (length xs))) by lia. rewrite (first_weight_S r nb (S (length xs))) by lia.
    destruct (Nat.ltb_spec (S (length xs)) nb); [|ring]. pose proof (INR_S_nz (S (length xs))) as Nz. rewrite (S_INR (S (length xs))) in *. field. exact Nz.
Qed.
Theorem C81_diagonal_remembers_origin p b r x xs : r <> 0 ->
  exists o o' m v, fitted_on (C := Diagonal) (EWA r false) (map (fv p) (x :: xs)) o /\
    fitted_on (C := Diagonal) (EWA r false) (map (fv p) (map (fun (y : obs) i => y i + b i) (x :: xs))) o' /\
    location_ o = Ok (fv p m) /\ covariance_ o = Ok (fm p p (rdiag v)) /\
    location_ o' = Ok (fv p (fun i => m i + b i)) /\
    covariance_ o' = Ok (fm p p (rdiag (fun i => v i + first_weight r (burn_len r) (S (length xs)) * ((x i + b i) ^ 2 - x i ^ 2)))).
Proof.
  intros Hr. pose proof (burn_len_bounds r) as Hb.
  destruct (Diagonal_run p r false _ _ Hr (observes_seen p false (x :: xs)) ltac:(discriminate)) as (o & E1 & _ & E3 & E4 & _).
  destruct (Diagonal_run p r false _ _ Hr (seen_shift p b false (x :: xs)) ltac:(discriminate)) as (o' & F1 & _ & F3 & F4 & _).
  eexists o, o', _, _. split; [exact E1|]. split; [exact F1|]. split; [exact E3|]. split; [exact E4|].
  rewrite F3, F4. split; f_equal; [apply fv_ext; intros; apply mean_shift; [lia|discriminate]|]. apply fm_ext. intros i j _ _. unfold rdiag.
  destruct (Nat.eqb i j); [|reflexivity]. unfold diag_var. cbn [seen]. etransitivity; [exact (innov_shift r (burn_len r) b x xs i i ltac:(lia))|].
  unfold dev_cov. ring.
Qed.

(** PartialMoments, DCC, Factor and Tyler also take the first innovation about 0, so on levels they are not shift
    invariant: no rate, no LAPACK, no number of components makes them so. *)
Definition one1 : list obs := [fun _ => 1].
Lemma burn1 (r : R) : Nat.ltb 0 (burn_len r) = true.
Proof. apply Nat.ltb_lt. pose proof (burn_len_bounds r). lia. Qed.
Lemma innov_one r nb (x : obs) i j : Nat.ltb 0 nb = true -> dev_cov r nb [x] i j = x i * x j.
Proof.
  intros H. unfold dev_cov. change [x] with ([] ++ [x])%list. rewrite rw_avg_snoc, rw_avg_nil. cbn [length]. rewrite H. unfold dev. rewrite !ewa_mean_nil.
  cbn [INR]. field.
Qed.
Lemma pd_one (S : rmat) : 0 < S 0%nat 0%nat -> pd 1 S.
Proof.
  intros H. split; [intros i j Hi Hj; replace i with 0%nat by lia; replace j with 0%nat by lia; reflexivity|].
  intros v (i & Hi & Nz). replace i with 0%nat in Nz by lia. unfold qf, rdot. cbn [rsum]. assert (0 < v 0%nat * v 0%nat) by (apply Rsqr_pos_lt; auto). nra.
Qed.
Theorem C81_partial_moments_shift_matters L fuel r : lawful L -> (1 <= fuel)%nat -> 0 < r <= 1 ->
  shift_matters 1 (PartialMoments L fuel) (EWA r) false.
Proof.
  intros HL Hf Hr.
  destruct (PartialMoments_run L fuel 1 r false _ _ ltac:(lra) (observes_seen 1 false one1) ltac:(discriminate)) as (u & G1 & _ & _ & G4 & _).
  destruct (PartialMoments_run L fuel 1 r false _ _ ltac:(lra) (seen_shift 1 (fun _ => 1) false one1) ltac:(discriminate)) as (u' & H1 & _ & _ & H4 & _).
  assert (V : forall x : obs, x 0%nat <> 0 -> (c <- nearest_pos_def L fuel (fm 1 1 (dev_cov r (burn_len r) [x])) ;; to_symmetric c) = Ok (fm 1 1 (dev_cov r (burn_len r) [x]))).
  { intros x Nx. assert (P : pd 1 (dev_cov r (burn_len r) [x])) by (apply pd_one; rewrite innov_one by apply burn1; apply Rsqr_pos_lt; auto).
    rewrite (C42_pos_def_unchanged L 1 _ fuel HL ltac:(lia) Hf P). cbn [bind]. apply to_symmetric_sym_fin. apply P. }
  unfold seen, one1 in G4, H4. cbn [map] in G4, H4. rewrite V in G4 by lra. rewrite V in H4 by (unfold sh; lra).
  eexists (fun _ => 1), one1, u, u', _, _, 0%nat, 0%nat. split; [exact G1|]. split; [exact H1|]. split; [exact G4|]. split; [exact H4|].
  split; [lia|]. split; [lia|]. rewrite !innov_one by apply burn1. unfold sh. lra.
Qed.
Theorem C81_dcc_shift_matters r vol_r : let rv := match vol_r with Some v => v | None => r end in 0 < r <= 1 -> 0 < rv <= 1 ->
  shift_matters 1 DCC (DCCP r vol_r) false.
Proof.
  intros rv Hr Hrv.
  assert (Hm : Rmin r (vol_rate r vol_r) <> 0) by (unfold vol_rate; fold rv; assert (0 < Rmin r rv) by (apply Rmin_glb_lt; lra); lra).
  destruct (DCC_run 1 r vol_r false _ _ Hm (observes_seen 1 false one1) ltac:(discriminate)) as (u & G1 & _ & _ & G4 & _).
  destruct (DCC_run 1 r vol_r false _ _ Hm (seen_shift 1 (fun _ => 1) false one1) ltac:(discriminate)) as (u' & H1 & _ & _ & H4 & _).
  eexists (fun _ => 1), one1, u, u', _, _, 0%nat, 0%nat. split; [exact G1|]. split; [exact H1|]. split; [exact G4|]. split; [exact H4|].
  split; [lia|]. split; [lia|]. unfold seen, one1. cbn [map].
  set (nb := burn_len (Rmin r (vol_rate r vol_r))) in *.
  assert (V : forall x : obs, 1 <= x 0%nat -> dcc_H (dcc_Q r (vol_rate r vol_r) nb [x]) (dcc_h (vol_rate r vol_r) nb [x]) 0%nat 0%nat = x 0%nat * x 0%nat).
  { intros x Hx.
    assert (Vh : dcc_h (vol_rate r vol_r) nb [x] 0%nat = x 0%nat * x 0%nat) by (apply (innov_one (vol_rate r vol_r) nb x 0 0 (burn1 _))).
    assert (e12 < 1) by (unfold e12; lra). assert (1 <= x 0%nat * x 0%nat) by nra.
    assert (Sv : svol (x 0%nat * x 0%nat) = x 0%nat) by (unfold svol; rewrite Rmax_left by lra; apply sqrt_square; lra).
    assert (VQ : dcc_Q r (vol_rate r vol_r) nb [x] 0%nat 0%nat = 1).
    { unfold dcc_Q. change [x] with ([] ++ [x])%list. rewrite rw_avg_snoc, rw_avg_nil. cbn [length app]. unfold nb. rewrite burn1. fold nb. unfold dcc_eps. cbn [app]. rewrite Vh, Sv. unfold dev. rewrite ewa_mean_nil. cbn [INR]. field. lra. }
    unfold dcc_H, qcorr. rewrite Vh, VQ, Sv. assert (S1 : svol 1 = 1) by (unfold svol; rewrite Rmax_left by lra; apply sqrt_1). rewrite S1. field. }
  rewrite !V by (unfold sh; lra). unfold sh. lra.
Qed.
Theorem C81_factor_shift_matters k r : 0 < r <= 1 -> shift_matters 1 Factor (FACP k r) false.
Proof.
  intros Hr.
  destruct (C40_factor_dominates 1 k r false _ _ Hr (observes_seen 1 false one1) ltac:(discriminate)) as (u & vs & S0 & G1 & _ & G4 & _ & _ & D & _).
  assert (I1 : forall x : obs, innov_var r (Nat.min k 1 + 1) [x] 0 = x 0%nat * x 0%nat).
  { intros x. apply (innov_one r (Nat.min k 1 + 1) x 0 0). apply Nat.ltb_lt. lia. }
  set (s := S0 0%nat 0%nat).
  assert (Hs : 1 <= s) by (unfold s; rewrite D; eapply Rle_trans; [|apply Rmax_l]; unfold seen, one1; rewrite I1; lra).
  destruct (C40_factor_dominates 1 k r false _ _ Hr (seen_shift 1 (fun _ => s) false one1) ltac:(discriminate)) as (u' & vs' & S1 & H1 & _ & H4 & _ & _ & D' & _).
  eexists (fun _ => s), one1, u, u', _, _, 0%nat, 0%nat. split; [exact G1|]. split; [exact H1|]. split; [exact G4|]. split; [exact H4|].
  split; [lia|]. split; [lia|].
  assert (Ge : (1 + s) * (1 + s) <= S1 0%nat 0%nat) by (rewrite D'; eapply Rle_trans; [|apply Rmax_l]; unfold seen, one1; cbn [map]; rewrite I1; unfold sh; lra).
  fold s. nra.
Qed.
Theorem C81_tyler_shift_matters L r : lawful L -> 0 < r < 1 -> shift_matters 2 (Tyler L) (EWA r) false.
Proof.
  intros HL Hr. set (b := fun i : nat => if Nat.eqb i 1 then -1 else 0).
  destruct (Tyler_run L HL 2 r false _ (fun _ => 1) [] ltac:(lia) Hr (observes_seen 2 false one1)) as (u & G1 & _ & _ & _ & G4 & _); [exists 0%nat; split; [lia|lra]|].
  destruct (Tyler_run L HL 2 r false _ _ [] ltac:(lia) Hr (seen_shift 2 b false one1)) as (u' & H1 & _ & _ & _ & H4 & _); [exists 0%nat; split; [lia|unfold sh, b; simpl; lra]|].
  eexists b, one1, u, u', _, _, 0%nat, 1%nat. split; [exact G1|]. split; [exact H1|]. split; [exact G4|]. split; [exact H4|].
  split; [lia|]. split; [lia|].
  assert (V : forall x : obs, 0 < x 0%nat * x 0%nat + x 1%nat * x 1%nat -> forall i j, aC (tyl_st L 2 r [x]) i j = 2 * (x i * x j) / (x 0%nat * x 0%nat + x 1%nat * x 1%nat)).
  { intros x Hx i j. unfold tyl_st. cbn [fold_left]. unfold tyl_step. cbn [aC t_init an]. unfold tyl_lr.
    replace (Nat.leb 1 (burn_len r)) with true by (symmetry; apply Nat.leb_le; pose proof (burn_len_bounds r); lia).
    unfold rtrace, tyl_C1, dv. cbn [rsum aC am t_init INR]. pose proof (tyl_q_pos L 2 t_init x) as Q. unfold t_init in Q. set (q := tyl_q L 2 _ x) in *. field. split; [lra|].
    nra. }
  unfold corr_of. rewrite !V by (unfold sh, b; simpl; lra). unfold sh, b. simpl.
  replace (2 * ((1 + 0) * (1 + -1)) / _) with 0 by (unfold Rdiv; ring).
  replace (2 * (1 * 1) / (1 * 1 + 1 * 1)) with 1 by field. rewrite Rmult_1_l, sqrt_1.
  assert (0 < / (1 + e12)) by (apply Rinv_0_lt_compat; pose proof e12_pos; lra). unfold Rdiv. lra.
Qed.

(** Concrete cases: the hypotheses of C79, C80 and C81 are met by non-trivial maps and streams. *)
Definition turn2 : rmat := fun i j => if Nat.eqb i 0 then (if Nat.eqb j 0 then 3 else -4) else (if Nat.eqb j 0 then 4 else 3).
Example symmetry_hypotheses_met :
  similarity 2 25 turn2 /\ reorders 3 swap12 /\ ~ keeps_blocks 3 (blocks 2 3) swap12 /\
  (exists sg, reorders 3 sg /\ sg 0%nat <> 0%nat /\ keeps_blocks 3 (blocks 2 3) sg) /\
  seen false ord_ex <> [] /\ seen true ord_ex <> [].
Proof.
  split; [|split; [apply swap12_reorders|split; [|split; [|split; discriminate]]]].
  - split; [lra|]. split; intros i j Hi Hj; destruct i as [|[|i]]; destruct j as [|[|j]]; try lia; unfold rmul, rT, turn2, rI; cbn [rsum Nat.eqb]; ring.
  - intros H. destruct (H 0%nat 1%nat ltac:(lia) ltac:(lia)) as [_ H1]. specialize (H1 eq_refl). vm_compute in H1. discriminate.
  - exists (fun i => match i with 0%nat => 1%nat | 1%nat => 0%nat | _ => i end). split; [|split; [discriminate|]].
    + split; [intros [|[|[|i]]]; simpl; lia|]. intros [|[|[|i]]] [|[|[|j]]] Hi Hj; simpl; intros; lia.
    + intros i j Hi Hj. destruct i as [|[|[|i]]]; destruct j as [|[|[|j]]]; try lia; vm_compute; split; intros; congruence.
Qed.

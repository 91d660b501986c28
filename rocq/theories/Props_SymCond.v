(** * C79, C81 for SchurConditionalCovariance *)
From Coq Require Import Reals ZArith String List Lia Lra Arith Bool.
From Verif Require Import Num Numpy PyVal LinalgModel StateModel BaseModel Estimators Spec ListLemmas BaseProofs
  RMat LinSpec Fin RealSpec RunFin EwaReal RunAvg EmpFacts Props_Emp ShrinkReal Spectral MatAlg Contracts LinalgReal
  BlockSpec BlockGeom BlockReal BlockRun BlockRun2 SchurCondSpec SchurCondReal SymSpec SymReal SymRun SymGeo SymPerm Props_Sym Props_SymShift SymCond.
Import ListNotations.
Local Open Scope string_scope.
Local Open Scope R_scope.

(** Reordering variables inside their blocks: gamma_ is the same, location_ and covariance_ are permuted, and a read of the
    covariance that raises LinAlgError for one order raises it for the other. *)
Theorem C79_order_schur_conditional p sg L r n_blocks diff ys : lawful L -> (1 <= p)%nat -> 0 < r <= 1 ->
  reorders p sg -> fixes_blocks p (blocks n_blocks p) sg -> seen diff ys <> [] ->
  exists o o' m g,
    fitted_on (C := SchurCond L) (BLK r n_blocks diff) (map (fv p) ys) o /\
    fitted_on (C := SchurCond L) (BLK r n_blocks diff) (map (fv p) (map (fun (y : obs) i => y (sg i)) ys)) o' /\
    location_ o = Ok (fv p m) /\ location_ o' = Ok (fv p (fun i => m (sg i))) /\
    sc_gamma_ L o = Ok g /\ sc_gamma_ L o' = Ok g /\
    ((covariance_ o = Err LinAlgError /\ covariance_ o' = Err LinAlgError) \/
     exists S, covariance_ o = Ok (fm p p S) /\ covariance_ o' = Ok (fm p p (fun i j => S (sg i) (sg j)))).
Proof.
  intros HL Hp Hr HS HF Hx.
  destruct (sc_run_state L HL p r n_blocks diff _ _ Hp Hr (observes_seen p diff ys) Hx) as (o & E1 & E2 & E3 & E4 & E5 & E6).
  destruct (sc_run_state L HL p r n_blocks diff _ _ Hp Hr (seen_sel p sg diff ys) (map_nil_neq _ _ Hx)) as (o' & F1 & F2 & F3 & F4 & F5 & F6).
  set (xs := seen diff ys) in *. set (re := fun (y : obs) i => y (sg i)) in *.
  set (st := fold_left (ewa_step r (burn_len r)) xs a_init) in *. set (st' := fold_left (ewa_step r (burn_len r)) (map re xs) a_init) in *.
  eexists o, o', _, _. split; [exact E1|]. split; [exact F1|]. split; [exact E2|]. split.
  { rewrite F2. f_equal. apply fv_ext. intros. apply mean_order. }
  split; [exact E3|]. split.
  { rewrite F3, map_length. apply (f_equal (fun z => Ok (Fin z))).
    apply (gaussian_reliability_perm p _ _ sg); auto using fixes_keeps. apply corr_of_perm; auto. intros i j _ _. apply cov_order. }
  assert (EC : forall i j, (i < p)%nat -> (j < p)%nat -> aC st' i j = aC st (sg i) (sg j)).
  { intros i j _ _. rewrite F6, E6. apply cov_order. }
  assert (PC : psd p (ewa_cov r (burn_len r) xs)) by (apply psd_ewa_cov; lra).
  destruct (sc_cov_perm L HL p r n_blocks false sg st st' Hp ltac:(lra)) as [[X Y]|(S & S' & X & Y & SS & SS' & ES)]; auto.
  - intros i Hi. rewrite E6. now apply (psd_diag_nonneg p).
  - intros i j Hi Hj. rewrite !E6. now apply PC.
  - rewrite F5, E5. apply map_length.
  - left. rewrite E4, F4, X, Y. auto.
  - right. exists S. rewrite E4, F4, X, Y. cbn [bind]. rewrite !to_symmetric_sym_fin by auto. split; [reflexivity|]. f_equal. now apply fm_ext.
Qed.

(** Shifting the stream leaves gamma_ and covariance_ alone (including a LinAlgError) and shifts location_. *)
Theorem C81_schur_conditional_shift p b L r n_blocks diff ys : lawful L -> (1 <= p)%nat -> 0 < r <= 1 -> seen diff ys <> [] ->
  exists o o' m,
    fitted_on (C := SchurCond L) (BLK r n_blocks diff) (map (fv p) ys) o /\
    fitted_on (C := SchurCond L) (BLK r n_blocks diff) (map (fv p) (map (fun (y : obs) i => y i + b i) ys)) o' /\
    location_ o = Ok (fv p m) /\ location_ o' = Ok (fv p (fun i => m i + (if diff then 0 else b i))) /\
    sc_gamma_ L o' = sc_gamma_ L o /\ covariance_ o' = covariance_ o.
Proof.
  intros HL Hp Hr Hx. pose proof (burn_len_bounds r) as Hb.
  destruct (sc_run_state L HL p r n_blocks diff _ _ Hp Hr (observes_seen p diff ys) Hx) as (o & E1 & E2 & E3 & E4 & E5 & E6).
  destruct (sc_run_state L HL p r n_blocks diff _ _ Hp Hr (seen_shift p b diff ys) (map_nil_neq _ _ Hx)) as (o' & F1 & F2 & F3 & F4 & F5 & F6).
  set (b' := if diff then fun _ => 0 else b) in *. set (xs := seen diff ys) in *.
  set (st := fold_left (ewa_step r (burn_len r)) xs a_init) in *. set (st' := fold_left (ewa_step r (burn_len r)) (map (sh b') xs) a_init) in *.
  eexists o, o', _. split; [exact E1|]. split; [exact F1|]. split; [exact E2|]. split.
  { rewrite F2, <- sh_mean. f_equal. apply fv_ext. intros. apply mean_shift; auto; lia. }
  split.
  { rewrite F3, E3, map_length. apply (f_equal (fun z => Ok (Fin z))),  gaussian_reliability_ext, corr_of_ext. intros i j _ _. apply cov_shift. lia. }
  rewrite F4, E4. f_equal.
  assert (EM : fm p p (aC st') = fm p p (aC st)).
  { apply fm_ext. intros i j _ _. rewrite F6, E6. apply cov_shift. lia. }
  assert (EN : an st' = an st) by (rewrite F5, E5; apply map_length).
  unfold sc_cov. rewrite !sc_n_eff_fin by lra. unfold ewa_d, emp_d. rd. now rewrite EM, EN.
Qed.

(** Moving variables to other blocks changes the answer: block 1 keeps its marginal correlation while every later block
    is rebuilt from a damped regression, so with two variables in two blocks the variances trade places. *)
Definition sc_ex : list obs := map (fun l i => nth i l 0) [[2; 1]; [1; 2]; [-2; -1]; [-1; -2]].
Definition swap01 (i : nat) : nat := match i with 0%nat => 1%nat | 1%nat => 0%nat | _ => i end.
Lemma sc_ex_cov r i j : (i < 2)%nat -> (j < 2)%nat -> ewa_cov r (burn_len r) sc_ex i j = if Nat.eqb i j then 5 / 2 else 2.
Proof.
  intros Hi Hj. pose proof (burn_len_bounds r) as Hb. unfold ewa_cov, burn, after. rewrite firstn_all2, skipn_all2 by (simpl; lia). rewrite ewc_nil.
  unfold pcov_of, mean_of, sc_ex. cbn [map lsum length]. destruct i as [|[|i]]; destruct j as [|[|j]]; try lia; simpl; field.
Qed.
Lemma sc_ex_swapped r i j : (i < 2)%nat -> (j < 2)%nat -> ewa_cov r (burn_len r) (map (fun (y : obs) i => y (swap01 i)) sc_ex) i j = if Nat.eqb i j then 5 / 2 else 2.
Proof.
  intros Hi Hj. rewrite cov_order. destruct i as [|[|i]]; destruct j as [|[|j]]; try lia; cbn [swap01]; rewrite sc_ex_cov by lia; reflexivity.
Qed.
Lemma swap01_reorders : reorders 2 swap01.
Proof. split; [intros [|[|i]]; simpl; lia|]. intros [|[|i]] [|[|j]] Hi Hj; simpl; intros; lia. Qed.
(** the reassembled matrix of two variables in two blocks *)
Lemma sc_two_blocks L g n (C : rmat) G : lawful L -> 0 < g <= 1 -> 2 <= n ->
  (forall i j, (i < 2)%nat -> (j < 2)%nat -> C i j = if Nat.eqb i j then 5 / 2 else 2) ->
  reassembled 2 2 g n (corr_of C) G ->
  mpd L 2 (symm G) 1%nat 1%nat < mpd L 2 (symm G) 0%nat 0%nat.
Proof.
  intros HL Hg Hn EC [H0 H1]. change (block_start 2 2 1) with 1%nat in *.
  destruct (H1 1%nat ltac:(lia)) as (H & S & Q1 & Q2 & Q3 & Q4). clear H1.
  change (block_start 2 2 2) with 2%nat in *. change (block_start 2 2 1) with 1%nat in *. change (2 - 1)%nat with 1%nat in *.
  set (R0 := 5 / 2 / (5 / 2 + e12)). set (c := 2 / (5 / 2 + e12)).
  assert (e0 : 0 < e12 < 1 / 1000) by (unfold e12; lra).
  assert (sq : sqrt (5 / 2 * (5 / 2)) = 5 / 2) by (apply sqrt_square; lra).
  assert (R00 : corr_of C 0%nat 0%nat = R0) by (unfold corr_of; rewrite !EC by lia; cbn [Nat.eqb]; now rewrite sq).
  assert (R11 : corr_of C 1%nat 1%nat = R0) by (unfold corr_of; rewrite !EC by lia; cbn [Nat.eqb]; now rewrite sq).
  assert (R01 : corr_of C 0%nat 1%nat = c) by (unfold corr_of; rewrite !EC by lia; cbn [Nat.eqb]; now rewrite sq).
  assert (B0 : 99 / 100 < R0 < 1).
  { unfold R0. assert (I : / (5 / 2 + e12) * (5 / 2 + e12) = 1) by (apply Rinv_l; lra). assert (0 < / (5 / 2 + e12)) by (apply Rinv_0_lt_compat; lra). unfold Rdiv at 2 4. split; nra. }
  assert (B1 : c = 4 / 5 * R0) by (unfold c, R0; field; lra).
  set (h := H 0%nat 0%nat). set (ep := 1 / 10 ^ 10). assert (e1 : 0 < ep < 1 / 1000) by (unfold ep; lra).
  assert (Eh : (R0 + ep) * h = c).
  { specialize (Q1 0%nat 0%nat ltac:(lia) ltac:(lia)). cbn [rsum plus] in Q1. unfold regularised in Q1. cbn [Nat.eqb] in Q1. rewrite R00, R01 in Q1. fold ep in Q1. fold h in Q1. lra. }
  assert (Bh : 78 / 100 < h < 4 / 5) by (split; nra).
  set (q := R0 - c * h). assert (Bq : 3 / 10 < q) by (unfold q; nra).
  assert (ES : S 0%nat 0%nat = q).
  { destruct Q2 as [P1 P2]. specialize (P2 (fun _ _ => q)).
    assert (BB : bounded_below 1 e8 (fun _ _ => q)).
    { split; [intros i j _ _; reflexivity|]. intros v. unfold qf, rdot. cbn [rsum]. assert (0 <= v 0%nat * v 0%nat) by apply Rle_0_sqr. unfold e8. nra. }
    specialize (P2 BB). unfold fro2, symm in P2. cbn [rsum plus] in P2. rewrite R11, R01 in P2. fold h in P2. fold q in P2.
    replace (0 + c * h) with (c * h) in P2 by ring. fold q in P2.
    assert (Z : (S 0%nat 0%nat - q) * (S 0%nat 0%nat - q) <= 0) by (unfold q in *; nra). apply Rle_antisym; nra. }
  assert (G00 : G 0%nat 0%nat = R0) by (rewrite H0 by lia; exact R00).
  destruct (Q3 0%nat 0%nat ltac:(lia) ltac:(lia)) as [G10 G01]. cbn [rsum plus] in G10, G01. rewrite G00 in G10. fold h in G10.
  specialize (Q4 0%nat 0%nat ltac:(lia) ltac:(lia)). cbn [rsum plus] in Q4. rewrite R11, ES, G00 in Q4. fold h in Q4.
  set (t := g * h). assert (Bt : 0 < t < 4 / 5) by (unfold t; split; nra).
  assert (E10 : G 1%nat 0%nat = t * R0) by (rewrite G10; unfold t; ring).
  assert (E01 : G 0%nat 1%nat = t * R0) by congruence.
  assert (E11 : G 1%nat 1%nat = R0 - t * c + t * t * R0) by (rewrite Q4; unfold t, q; ring).
  assert (BB : bounded_below 2 e8 (symm G)).
  { split; [apply symm_sym|]. intros v. unfold qf, rdot, symm. cbn [rsum]. rewrite G00, E10, E01, E11. set (x := v 0%nat). set (y := v 1%nat).
    assert (K : 0 <= (x + t * y) * (x + t * y)) by apply Rle_0_sqr. assert (Y2 : 0 <= y * y) by apply Rle_0_sqr.
    assert (X2 : 0 <= (x + 2 * (t * y)) * (x + 2 * (t * y))) by apply Rle_0_sqr.
    assert (XX : x * x <= 2 * ((x + t * y) * (x + t * y)) + 2 * (y * y)).
    { assert (T1 : t * t <= 1) by (clear - Bt; nra). assert (T2 : t * t * (y * y) <= 1 * (y * y)) by (apply Rmult_le_compat_r; auto). lra. }
    assert (q3 : 3 / 10 <= R0 - t * c) by (unfold t; unfold q in Bq; nra).
    unfold e8. assert (M1 : 0 <= (R0 - 99 / 100) * ((x + t * y) * (x + t * y))) by (apply Rmult_le_pos; lra).
    assert (M2 : 0 <= (R0 - t * c - 3 / 10) * (y * y)) by (apply Rmult_le_pos; lra). nra. }
  assert (SD : meq 2 2 (symm (symm G)) (symm G)) by (apply symm_id, symm_sym).
  rewrite !(mpd_fix L HL 2 (symm G) ltac:(lia) (bb_ext 2 e8 _ _ (meq_sym _ _ _ _ SD) BB)) by lia.
  rewrite !SD by lia. unfold symm. rewrite G00, E11.
  assert (t * R0 < c) by (unfold t; nra). nra.
Qed.
Lemma sc_ex_gamma : forall D : rmat, (forall i j, (i < 2)%nat -> (j < 2)%nat -> D i j = if Nat.eqb i j then 5 / 2 else 2) -> 0 < gaussian_reliability 2 2 4 (corr_of D) <= 1.
Proof.
  intros D ED. pose proof (gaussian_reliability_range 2 2 4 (corr_of D)) as [K1 K2]. split; [|exact K2]. clear K1 K2.
    assert (sq : sqrt (5 / 2 * (5 / 2)) = 5 / 2) by (apply sqrt_square; lra). set (c := 2 / (5 / 2 + e12)).
    assert (e0 : 0 < e12 < 1 / 1000) by (unfold e12; lra).
    assert (R01 : corr_of D 0%nat 1%nat = c) by (unfold corr_of; rewrite !ED by lia; cbn [Nat.eqb]; now rewrite sq).
    assert (R10 : corr_of D 1%nat 0%nat = c) by (unfold corr_of; rewrite !ED by lia; cbn [Nat.eqb]; now rewrite sq).
    assert (Bc : 3 / 5 < c).
    { unfold c. assert (I : / (5 / 2 + e12) * (5 / 2 + e12) = 1) by (apply Rinv_l; lra). assert (0 < / (5 / 2 + e12)) by (apply Rinv_0_lt_compat; lra). unfold Rdiv at 2. nra. }
    assert (b0 : block_of 2 2 0 = 0%nat) by reflexivity. assert (b1 : block_of 2 2 1 = 1%nat) by reflexivity.
    unfold gaussian_reliability, cross_sum. cbn [rsum Nat.leb]. rewrite b0, b1. cbn [Nat.eqb]. rewrite R01, R10.
    set (nn := Rmax (c ^ 2 - (1 + c ^ 2) / 4) 0). assert (N0 : 0 < nn) by (unfold nn; apply Rlt_le_trans with (c ^ 2 - (1 + c ^ 2) / 4); [nra|apply Rmax_l]).
    destruct (Rlt_dec _ _) as [D0|D0]; [|exfalso; apply D0; nra].
    apply Rmin_glb_lt; [|lra]. eapply Rlt_le_trans; [|apply Rmax_l]. apply Rdiv_lt_0_compat; lra.
Qed.
Theorem C79_schur_conditional_order_matters L r : lawful L -> 0 < r <= 2 / 5 -> order_matters 2 (SchurCond L) (BLK r 2) false.
Proof.
  intros HL Hr.
  destruct (SchurCond_run L HL 2 r 2 false _ _ ltac:(lia) ltac:(lra) (observes_seen 2 false sc_ex) ltac:(discriminate)) as (u & G1 & _ & _ & _ & G4).
  destruct (SchurCond_run L HL 2 r 2 false _ _ ltac:(lia) ltac:(lra) (seen_sel 2 swap01 false sc_ex) ltac:(discriminate)) as (u' & H1 & _ & _ & _ & H4).
  cbn [seen] in *. change (blocks 2 2) with 2%nat in *.
  set (C := ewa_cov r (burn_len r) sc_ex) in *. set (C' := ewa_cov r (burn_len r) (map (fun (y : obs) i => y (swap01 i)) sc_ex)) in *.
  assert (EC : forall i j, (i < 2)%nat -> (j < 2)%nat -> C i j = if Nat.eqb i j then 5 / 2 else 2) by (intros; now apply sc_ex_cov).
  assert (EC' : forall i j, (i < 2)%nat -> (j < 2)%nat -> C' i j = if Nat.eqb i j then 5 / 2 else 2) by (intros; now apply sc_ex_swapped).
  assert (En : effective_n r 4 = 4).
  { unfold effective_n. replace (INR 4) with 4 by (simpl; lra). rewrite Rmin_left.
    - apply Rmax_right. lra.
    - apply Rmult_le_reg_r with r; [lra|]. unfold Rdiv. rewrite Rmult_assoc, Rinv_l by lra. lra. }
  rewrite map_length in H4. change (length sc_ex) with 4%nat in *. rewrite En in *.
  assert (NoErr : forall D : rmat, (forall i j, (i < 2)%nat -> (j < 2)%nat -> D i j = if Nat.eqb i j then 5 / 2 else 2) ->
     ~ exists b, (1 <= b < 2)%nat /\ ~ invertible (block_start 2 2 b) (regularised (block_start 2 2 b) 4 (corr_of D))).
  { intros D ED (b & Hb & NI). replace b with 1%nat in NI by lia. change (block_start 2 2 1) with 1%nat in NI. apply NI. apply pd_invertible, pd_one.
    unfold regularised. cbn [Nat.eqb]. unfold corr_of. rewrite !ED by lia. cbn [Nat.eqb]. pose proof (sqrt_pos (5 / 2 * (5 / 2))). pose proof e12_pos.
    assert (0 < 5 / 2 / (sqrt (5 / 2 * (5 / 2)) + e12)) by (apply Rdiv_lt_0_compat; lra). lra. }
  destruct G4 as [[_ Z]|(G & RG & G4)]; [exfalso; exact (NoErr C EC Z)|].
  destruct H4 as [[_ Z]|(G' & RG' & H4)]; [exfalso; exact (NoErr C' EC' Z)|].
  pose proof (sc_two_blocks L _ 4 C G HL (sc_ex_gamma C EC) ltac:(lra) EC RG) as D1.
  pose proof (sc_two_blocks L _ 4 C' G' HL (sc_ex_gamma C' EC') ltac:(lra) EC' RG') as D2.
  assert (FS : forall D : rmat, (forall i j, (i < 2)%nat -> (j < 2)%nat -> D i j = if Nat.eqb i j then 5 / 2 else 2) -> forall i, (i < 2)%nat -> floored_sd D i * floored_sd D i = 5 / 2).
  { intros D ED i Hi. unfold floored_sd. rewrite ED, Nat.eqb_refl by auto. rewrite sqrt_sqrt; rewrite Rmax_left; unfold e12; lra. }
  destruct (Req_dec (mpd L 2 (symm G) 1%nat 1%nat) (mpd L 2 (symm G') 0%nat 0%nat)) as [Q|Q].
  - eexists swap01, sc_ex, u, u', _, _, 1%nat, 1%nat. split; [apply swap01_reorders|]. split; [exact G1|]. split; [exact H1|]. split; [exact G4|]. split; [exact H4|].
    split; [lia|]. split; [lia|]. cbn [swap01]. rewrite (FS C EC 0%nat), (FS C' EC' 1%nat) by lia. lra.
  - eexists swap01, sc_ex, u, u', _, _, 0%nat, 0%nat. split; [apply swap01_reorders|]. split; [exact G1|]. split; [exact H1|]. split; [exact G4|]. split; [exact H4|].
    split; [lia|]. split; [lia|]. cbn [swap01]. rewrite (FS C EC 1%nat), (FS C' EC' 0%nat) by lia. lra.
Qed.
(** Beside the theorems: a reordering that fixes the blocks without being the identity. *)
Example C79_fixes_blocks_met : reorders 3 swap01 /\ fixes_blocks 3 (blocks 2 3) swap01 /\ swap01 0 <> 0%nat /\ seen false ord_ex <> [].
Proof.
  split; [|split; [|split; discriminate]].
  - split; [intros [|[|[|i]]]; simpl; lia|]. intros [|[|[|i]]] [|[|[|j]]] Hi Hj; simpl; intros; lia.
  - intros [|[|[|i]]] Hi; try lia; reflexivity.
Qed.

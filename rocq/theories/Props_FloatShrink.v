(** * C76, C77: the shrinkage estimators in IEEE binary64

    LedoitWolf, OAS and Shrunk square the variances on the way to their intensity, so the magnitudes at which they overflow are
    about half (in the exponent) of what Ewa stands. *)
From Coq Require Import Reals ZArith String List Bool Lia Lra Psatz.
From Flocq Require Import Core BinarySingleNaN.
From Verif Require Import Num NumBin Numpy PyVal LinalgModel StateModel BaseModel Estimators RegistryModel Spec ListLemmas BaseProofs Shapes ClassShapes
  RMat RealSpec EwaReal EmpFacts RunAvg Props_Stream Props_Shape Props_Moment FloatSpec FloatBase FloatRun FloatErr FloatAcc FloatEwa FloatDiag Props_Float FloatBound.
Import ListNotations.
Local Open Scope R_scope.

(** ** The shared running moments *)
Definition lim : Z := 230.
(** what is known of the raw covariance entries of a state when all data is within 2^230 *)
Definition raw_ok (p : nat) (c : nat -> nat -> NumB) : Prop :=
  (forall i j, (i < p)%nat -> (j < p)%nat -> bd 463 (c i j)) /\ (forall i, (i < p)%nat -> 0 <= val (c i i)).
Lemma within_mono p B B' xs : B <= B' -> within p B xs -> within p B' xs.
Proof. intros H W x Hx i Hi. destruct (W x Hx i Hi) as [F K]. split; [exact F|lra]. Qed.
Lemma raw_ewa p r nb xs : rate64 r -> (5 <= nb <= 250)%nat -> within p (b2 230) xs ->
  raw_ok p (fc (fold_left (f_ewa r nb) xs f0)) /\ (forall i, (i < p)%nat -> bd 231 (fm_ (fold_left (f_ewa r nb) xs f0) i)).
Proof.
  intros HR Nb W. assert (ML : mag_lo <= b2 230) by (apply bpow_le; lia). assert (MH : b2 230 <= mag_hi) by (apply bpow_le; lia).
  pose proof (ewa_acc _ ML MH r (rate_fin _ HR) (rate_lo _ HR) (rate_hi _ HR) nb ltac:(lia) ltac:(lia) p _ W) as A.
  destruct (ewa_ok_bounds _ ML r (rate_lo _ HR) (rate_hi _ HR) nb ltac:(lia) ltac:(lia) p _ _ W A) as [Bm B]. destruct A as [Am Ac].
  split; [split|].
  - intros i j Hi Hj. split; [apply (Ac i j Hi Hj)|]. eapply Rle_trans; [apply (B i j Hi Hj)|].
    rewrite <- bpow_plus. replace (b2 463) with (b2 3 * b2 (230 + 230)) by (rewrite <- bpow_plus; f_equal; lia). change (b2 3) with 8.
    pose proof (bpow_ge_0 radix2 (230 + 230)). lra.
  - intros i Hi. apply (ewa_var_nonneg _ ML MH r (rate_fin _ HR) (rate_lo _ HR) (rate_hi _ HR) nb ltac:(lia) ltac:(lia) p _ i W Hi).
  - intros i Hi. split; [apply (Am i Hi)|]. eapply Rle_trans; [apply (Bm i Hi)|].
    replace (b2 231) with (2 * b2 230) by (change 2 with (b2 1); rewrite <- bpow_plus; f_equal; lia). pose proof (bpow_ge_0 radix2 230). lra.
Qed.
Lemma within_230 p rows : rows_of_length p rows -> rows_within (pow2 230) rows -> within p (b2 230) (coords rows).
Proof. intros Hr Hw. rewrite <- pow2_bpow. now apply within_coords. Qed.

(** ** The trace and the target *)
Section Read.
  Context (p : nat) (P1 : (1 <= p)%nat) (P2 : (Z.of_nat p <= 2 ^ 20)%Z).
  Lemma rows_tab2 {N : Num} (f : nat -> nat -> N) : nrows (tab2 p p f) = p. Proof. apply tab2_length. Qed.
  Lemma cols_tab2 {N : Num} (f : nat -> nat -> N) : ncols (tab2 p p f) = p.
  Proof. unfold ncols, tab2. clear P2. destruct p; [lia|]. rewrite tab_S. cbn [hd]. apply tab_length. Qed.
  Lemma trace_tab2 {N : Num} (f : nat -> nat -> N) : mtrace (tab2 p p f) = vsum (tab p (fun i => f i i)).
  Proof.
    unfold mtrace, diagonal. rewrite rows_tab2, cols_tab2, Nat.min_id. f_equal. apply tab_ext. intros i Hi. now rewrite mget_tab.
  Qed.
  Lemma bd_trace f e : (-1074 <= e)%Z -> (e + 20 <= 1023)%Z -> (forall i, (i < p)%nat -> bd e (f i i)) ->
    bd (e + 20) (mtrace (tab2 p p f)) /\ ((forall i, (i < p)%nat -> 0 <= val (f i i)) -> 0 <= val (mtrace (tab2 p p f))).
  Proof.
    intros H1 H2 H3. rewrite trace_tab2. destruct (bd_vsum (tab p (fun i => f i i)) e H1 H2) as [A B].
    - apply Forall_tab. exact H3.
    - rewrite tab_length. exact P2.
    - split; [exact A|]. intros H. apply B. apply Forall_tab. exact H.
  Qed.
  Lemma trace_over_p e (t : NumB) : bd e t -> (-1074 <= e <= 1023)%Z -> bd e (ndiv t (nofn p)) /\ (0 <= val t -> 0 <= val (ndiv t (nofn p))).
  Proof.
    intros B H. destruct (bd_nofn p P1 P2) as (F & G & V). destruct (bd_div e t _ B F G H) as [K KV]. split; [exact K|].
    intros Ht. rewrite KV. apply rnd_nonneg. apply Rmult_le_pos; [exact Ht|]. left. apply Rinv_0_lt_compat. lra.
  Qed.
  Context (c : nat -> nat -> NumB) (RO : raw_ok p c).
  Lemma one_minus (rho : NumB) : unit64 rho -> unit64 (nsub n1 rho).
  Proof.
    intros Hr. destruct fin_1 as [F1 V1]. destruct Hr as [Fr Vr]. destruct (fin_sub n1 rho F1 Fr) as [F V].
    { rewrite V1, Rabs_right by lra. apply Rle_trans with (b2 0); [simpl; lra|apply b2_big; lia]. }
    split; [exact F|]. rewrite V, V1. split; [apply rnd_nonneg; lra|]. apply rnd_le; [rewrite <- V1; apply val_fmt|lra].
  Qed.
  (** [(1 - rho) * S + T] with 0 <= rho <= 1 and a non-negative diagonal of T *)
  Lemma mixed_gen (e : Z) (rho : NumB) (t : nat -> nat -> NumB) : (463 <= e <= 1020)%Z -> unit64 rho ->
    (forall i j, (i < p)%nat -> (j < p)%nat -> bd e (t i j)) -> (forall i, (i < p)%nat -> 0 <= val (t i i)) ->
    let f i j := nadd (nmul (nsub n1 rho) (c i j)) (t i j) in
    (forall i j, (i < p)%nat -> (j < p)%nat -> bd (e + 1) (f i j)) /\ (forall i, (i < p)%nat -> 0 <= val (f i i)).
  Proof.
    intros He Hr Ht Nt f. destruct RO as [RB RN]. pose proof (one_minus rho Hr) as U1.
    assert (A : forall i j, (i < p)%nat -> (j < p)%nat -> bd 463 (nmul (nsub n1 rho) (c i j)) /\ val (nmul (nsub n1 rho) (c i j)) = rnd (val (nsub n1 rho) * val (c i j))).
    { intros i j Hi Hj. apply (bd_mul 0 463); [now apply unit_bd|now apply RB|lia]. }
    split.
    + intros i j Hi Hj. apply (bd_add e); [apply bd_le with 463%Z; [apply (A i j Hi Hj)|lia]|now apply Ht|lia].
    + intros i Hi. unfold f. destruct (A i i Hi Hi) as [A1 A2].
      destruct (bd_add e _ _ (bd_le _ e _ A1 ltac:(lia)) (Ht i i Hi Hi) ltac:(lia)) as [_ V]. rewrite V. apply rnd_nonneg. rewrite A2.
      apply Rplus_le_le_0_compat; [apply rnd_nonneg; apply Rmult_le_pos; [apply U1|now apply RN]|now apply Nt].
  Qed.
  (** [m * I] *)
  Lemma bd_eye e (m : NumB) i j : bd e m -> (-1074 <= e <= 1023)%Z -> 0 <= val m ->
    bd e (nmul m (if Nat.eqb i j then n1 else n0)) /\ 0 <= val (nmul m (if Nat.eqb i j then n1 else n0)).
  Proof.
    intros Hm He Nm. destruct (bd_mul e 0 m (if Nat.eqb i j then n1 else n0)) as [B V]; [exact Hm|destruct (Nat.eqb i j); [exact bd_1|apply bd_0]|lia|].
    rewrite Z.add_0_r in B. split; [exact B|]. rewrite V. apply rnd_nonneg. apply Rmult_le_pos; [exact Nm|].
    destruct fin_0 as [_ V0], fin_1 as [_ V1]. destruct (Nat.eqb i j); [rewrite V1|rewrite V0]; lra.
  Qed.
  Lemma mixed (rho m : NumB) : unit64 rho -> bd 483 m -> 0 <= val m ->
    let f i j := nadd (nmul (nsub n1 rho) (c i j)) (nmul m (if Nat.eqb i j then n1 else n0)) in
    madd (mscale (nsub n1 rho) (tab2 p p c)) (mscale m (meye p)) = Ok (tab2 p p f) /\
    (forall i j, (i < p)%nat -> (j < p)%nat -> bd 484 (f i j)) /\ (forall i, (i < p)%nat -> 0 <= val (f i i)).
  Proof.
    intros Hr Hm Nm f. split; [unfold madd, mscale, mmap, meye; rewrite !map_tab2, bc2_tab; reflexivity|].
    apply (mixed_gen 483); [lia|exact Hr|intros; now apply bd_eye|intros; now apply (bd_eye 483)].
  Qed.
  (** the symmetrised matrix *)
  Lemma symmetrised e f : (-1074 <= e <= 1021)%Z -> (forall i j, (i < p)%nat -> (j < p)%nat -> bd e (f i j)) -> (forall i, (i < p)%nat -> 0 <= val (f i i)) ->
    exists cov, to_symmetric (tab2 p p f) = Ok cov /\ is_mat p p cov /\ Forall (Forall finite64) cov /\ variances_nonneg p cov.
  Proof.
    intros He HB HN. eexists. split; [apply to_symmetric_tab; exact P1|]. split; [apply is_mat_tab2|].
    assert (A : forall i j, (i < p)%nat -> (j < p)%nat -> bd (e + 1) (ndiv (nadd (f i j) (f j i)) (nofZ 2)) /\
      val (ndiv (nadd (f i j) (f j i)) (nofZ 2)) = rnd (rnd (val (f i j) + val (f j i)) / 2)).
    { intros i j Hi Hj. destruct (bd_add e (f i j) (f j i) (HB i j Hi Hj) (HB j i Hj Hi) ltac:(lia)) as [B V].
      destruct fin_2 as [F2 V2]. destruct (bd_div (e + 1) _ (nofZ 2) B F2) as [B' V']; [rewrite V2; lra|lia|]. split; [exact B'|]. now rewrite V', V, V2. }
    split.
    - apply is_mat_Forall_tab2. intros i j Hi Hj. apply (A i j Hi Hj).
    - intros i Hi. unfold entry64. rewrite mget_tab by exact Hi. destruct (A i i Hi Hi) as [B V]. split; [apply B|].
      change (0 <= val (ndiv (nadd (f i i) (f i i)) (nofZ 2))). rewrite V. apply rnd_nonneg.
      assert (0 <= rnd (val (f i i) + val (f i i))) by (apply rnd_nonneg; specialize (HN i Hi); lra). lra.
  Qed.
End Read.

(** ** OAS *)
Lemma oas_read p r nb a : (1 <= p)%nat -> (Z.of_nat p <= 2 ^ 20)%Z -> rate64 r -> raw_ok p (fc a) ->
  exists f, oas_cov (f_ewa_d (N := NumB) p r nb a) = Ok (tab2 p p f) /\
    (forall i j, (i < p)%nat -> (j < p)%nat -> bd 484 (f i j)) /\ (forall i, (i < p)%nat -> 0 <= val (f i i)).
Proof.
  intros P1 P2 HR RO. unfold oas_cov, f_ewa_d, f_emp_d.
  cbn [getI getN getM dget String.eqb Ascii.eqb Bool.eqb bind app fst snd].
  pose proof (rate_lo r HR) as Lo. pose proof (rate_hi r HR) as Hi. pose proof (rate_fin r HR) as Fr.
  assert (Pr : 0 < val r) by (apply Rlt_le_trans with r_lo; [apply bpow_gt_0|exact Lo]).
  destruct fin_0 as [F0 V0]. destruct fin_1 as [F1 V1]. destruct fin_2 as [F2 V2]. destruct (bd_nofn p P1 P2) as (Fp & Gp & Vp).
  unfold py_div at 1. rewrite leb_fin by assumption. rewrite V0. rewrite Rle_bool_false by exact Pr. cbn [andb bind].
  assert (Q : bd 30 (ndiv n1 r)).
  { assert (K : Rabs (1 / val r) <= b2 30).
    { rewrite Rabs_right by (apply Rle_ge; apply Rlt_le, Rdiv_lt_0_compat; lra). unfold Rdiv. rewrite Rmult_1_l.
      replace (b2 30) with (/ r_lo) by (unfold r_lo; simpl; lra). apply Rinv_le_contravar; [apply bpow_gt_0|exact Lo]. }
    destruct (fin_div n1 r F1 Fr) as [F V]; [lra|rewrite V1; eapply Rle_trans; [exact K|apply b2_big; lia]|]. split; [exact F|]. rewrite V, V1.
    apply rnd_abs_le; [apply fmt_bpow; lia|exact K]. }
  set (n := py_max (ndiv n1 r) (nofZ 2)).
  assert (Bn : bd 30 n).
  { unfold n, py_max. destruct (nltb (ndiv n1 r) (nofZ 2)); [|exact Q]. split; [exact F2|]. rewrite V2, Rabs_right by lra. simpl. lra. }
  unfold matmul. rewrite (rows_tab2 p), (cols_tab2 p P1), Nat.eqb_refl. cbn [bind].
  set (SS := tab2 p p _). destruct RO as [RB RN].
  assert (BS : bd 966 (mtrace SS)).
  { apply (bd_trace p P1 P2 _ 946); [lia|lia|]. intros i Hi'. apply (bd_vsum _ 926); [lia|lia| |].
    - rewrite nth_tab2 by exact Hi'. unfold mcol, tab2. rewrite map_tab, zipw_tab. apply Forall_tab. intros k Hk.
      rewrite nth_tab by exact Hi'. apply (bd_mul 463 463); [now apply RB|now apply RB|lia].
    - rewrite nth_tab2 by exact Hi'. unfold mcol, tab2. rewrite map_tab, zipw_tab, tab_length. exact P2. }
  destruct (bd_trace p P1 P2 (fc a) 463) as [BT NT]; [lia|lia|intros i Hi'; now apply RB|]. specialize (NT RN).
  set (tr := mtrace (tab2 p p (fc a))) in *. change (463 + 20)%Z with 483%Z in BT.
  destruct (trace_over_p p P1 P2 483 tr BT ltac:(lia)) as [BM NM]. specialize (NM NT). set (mu := ndiv tr (nofn p)) in *.
  unfold py_div. rewrite leb_fin by assumption. rewrite V0. rewrite Rle_bool_false by lra. cbn [andb bind].
  set (tp := ndiv (nofZ 2) (nofn p)).
  assert (BP : bd 1 tp).
  { apply (bd_div 1); [split; [exact F2|rewrite V2, Rabs_right by lra; simpl; lra]|exact Fp|exact Gp|lia]. }
  destruct (bd_mul 483 483 tr tr BT BT ltac:(lia)) as [BTT _].
  destruct (bd_sub 1 n1 tp (bd_le 0 1 _ bd_1 ltac:(lia)) BP ltac:(lia)) as [B1 _].
  destruct (bd_mul 2 966 _ _ B1 BS ltac:(lia)) as [B2 _].
  destruct (bd_add 968 _ _ B2 (bd_le _ 968 _ BTT ltac:(lia)) ltac:(lia)) as [BN _].
  destruct (bd_add 30 n n1 Bn (bd_le _ 30 _ bd_1 ltac:(lia)) ltac:(lia)) as [B3 _].
  destruct (bd_sub 31 _ tp B3 (bd_le _ 31 _ BP ltac:(lia)) ltac:(lia)) as [B4 _].
  destruct (trace_over_p p P1 P2 966 (nmul tr tr) BTT ltac:(lia)) as [B5 _].
  destruct (bd_sub 966 _ _ BS B5 ltac:(lia)) as [B6 _].
  destruct (bd_mul 32 967 _ _ B4 B6 ltac:(lia)) as [BD _].
  set (num := nadd _ (nmul tr tr)) in *. set (den := nmul (nsub (nadd n n1) tp) _) in *.
  assert (RU : unit64 (if nleb den n0 then n1 else py_min (py_max (ndiv num den) n0) n1)).
  { destruct (nleb den n0) eqn:E; [exact unit_1|]. apply clip_unit. apply div_not_nan; [apply BN|apply BD|].
    rewrite leb_fin in E by (apply BD || exact F0). rewrite V0 in E. intros K. rewrite K in E. rewrite Rle_bool_true in E by lra. discriminate. }
  set (rho := if nleb den n0 then n1 else _) in *.
  destruct (bd_mul 0 483 rho mu (unit_bd _ RU) BM ltac:(lia)) as [B7 V7].
  destruct (mixed p P1 (fc a) (conj RB RN) rho (nmul rho mu) RU B7) as (E & X & Y).
  { rewrite V7. apply rnd_nonneg. apply Rmult_le_pos; [apply RU|exact NM]. }
  eexists. split; [exact E|]. split; [exact X|exact Y].
Qed.

(** every [EwaP]-like class with this state: from the read to the attributes *)
Section Fit.
  Context {C : EstClass NumB} (mk : bool -> c_P C).
  Context (HD : (forall b, c_diff C (mk b) = b) /\ same_hooks (mk true) (mk false)).
  Context (p nb : nat) (r : NumB) {A : Type} (emb : A -> c_St C) (step : A -> (nat -> NumB) -> A) (a0 : A) (pr : A -> fst3 (N := NumB)).
  Context (H0 : c_init C (mk false) p = Ok (emb a0)).
  Context (HS : forall a x, c_update C (mk false) (emb a) (tab p x) = Ok (emb (step a x))).
  Context (HN : forall a, c_nsamples C (emb a) = Ok (fn (pr a))).
  Context (HM : forall a, c_mean C (mk false) (emb a) = Ok (tab p (fm_ (pr a)))).
  Context (HP : forall a x, pr (step a x) = f_ewa r nb (pr a) x) (HP0 : pr a0 = f0).
  Lemma pr_fold xs a : pr (fold_left step xs a) = fold_left (f_ewa r nb) xs (pr a).
  Proof. revert a. induction xs as [|x xs IH]; intros a; cbn [fold_left]; auto. now rewrite IH, HP. Qed.
  Lemma fit64 diff rows : (1 <= p)%nat -> rate64 r -> (5 <= nb <= 250)%nat -> rows_of_length p rows -> absorbed diff rows <> [] ->
    rows_within (pow2 230) (absorbed diff rows) ->
    (forall a, a = fold_left step (coords (absorbed diff rows)) a0 -> raw_ok p (fc (pr a)) ->
       exists f, c_cov C (mk false) (emb a) = Ok (tab2 p p f) /\
         (forall i j, (i < p)%nat -> (j < p)%nat -> bd 1021 (f i j)) /\ (forall i, (i < p)%nat -> 0 <= val (f i i))) ->
    exists o loc cov, fitted64 (mk diff) rows o /\ finite_attributes p o loc cov /\ variances_nonneg p cov.
  Proof.
    intros P1 HR Nb Hr Hx Hw HC. set (xs := coords (absorbed diff rows)).
    assert (Hl : length xs = length (absorbed diff rows)) by apply map_length.
    destruct (raw_ewa p r nb xs HR Nb) as [RO Fm]; [apply within_230; [now apply absorbed_rows|exact Hw]|].
    destruct (absorbed diff rows) as [|y ys] eqn:Ey; [congruence|].
    destruct (run_tab (C := C) mk HD emb step p a0 H0 HS xs diff rows (length ys) Hr) as (o & E1 & E2 & E3 & E4).
    - rewrite Ey. unfold xs. apply coords_tab. rewrite <- Ey. now apply absorbed_rows.
    - destruct xs; discriminate.
    - rewrite HN, pr_fold, HP0, fn_ewa, Hl. reflexivity.
    - set (a := fold_left step xs a0) in *.
      assert (PA : pr a = fold_left (f_ewa r nb) xs f0) by (unfold a; now rewrite pr_fold, HP0).
      destruct (HC a eq_refl) as (f & Ec & X & Y); [rewrite PA; exact RO|].
      rewrite Ec in E4. cbn [bind] in E4. destruct (symmetrised p P1 1021 f ltac:(lia) X Y) as (cov & Es & Sh & Fc & Vn). rewrite Es in E4.
      exists o. eexists. exists cov. split; [exact E1|]. split; [|exact Vn]. unfold finite_attributes. rewrite E3, HM. split; [reflexivity|].
      split; [exact E4|]. split; [apply tab_length|]. split; [exact Sh|]. split; [|exact Fc].
      apply Forall_tab. intros i Hi. rewrite PA. exact (bd_fin _ _ (Fm i Hi)).
  Qed.
End Fit.

Theorem C77_oas_stays_finite p r diff rows :
  (1 <= p)%nat -> (Z.of_nat p <= 2 ^ 20)%Z -> rate64 r -> rows_of_length p rows -> absorbed diff rows <> [] ->
  rows_within (pow2 230) (absorbed diff rows) ->
  exists o loc cov, fitted64 (C := OAS) (mkEwaP r diff) rows o /\ finite_attributes p o loc cov /\ variances_nonneg p cov.
Proof.
  intros P1 P2 HR Hr Hx Hw. destruct (burn_ok r (rate_fin _ HR) (conj (rate_lo _ HR) (rate_hi _ HR))) as (nb & Eb & Nb & _).
  apply (fit64 (C := OAS) (fun b => mkEwaP r b) ltac:(split; [reflexivity|repeat split; intros; first [discriminate|reflexivity]])
    p nb r (f_ewa_d p r nb) (f_ewa r nb) f0 (fun a => a)); auto.
  - cbn. unfold ewa_init. rewrite Eb. reflexivity.
  - intros a x. apply (ewa_update_tab p r nb a x).
  - intros a _ RO. destruct (oas_read p r nb a P1 P2 HR RO) as (f & E & X & Y). exists f. split; [exact E|]. split; [|exact Y].
    intros i j Hi Hj. apply bd_le with 484%Z; [now apply X|lia].
Qed.

(** ** Shrunk, both targets *)
Lemma bd_floor : fin (nlit (N := NumB) 1 12) /\ b2 (-40) <= val (nlit (N := NumB) 1 12) <= 1.
Proof.
  destruct (fin_ofZ 1) as [F1 V1]; [cbn; lia|]. destruct (fin_ofZ (10 ^ 12)) as [F2 V2]; [cbn; lia|].
  assert (Z12 : IZR (10 ^ 12) = 1000000000000) by reflexivity.
  destruct (fin_div (nofZ 1) (nofZ (10 ^ 12)) F1 F2) as [F V].
  - rewrite V2, Z12. lra.
  - rewrite V1, V2, Z12, Rabs_right by lra. apply Rle_trans with (b2 0); [simpl; lra|apply b2_big; lia].
  - unfold nlit. split; [exact F|]. match goal with |- _ <= ?x <= _ => change x with (val (ndiv (nofZ 1) (nofZ (10 ^ 12)))) end.
    rewrite V, V1, V2, Z12. split; [apply rnd_ge; [apply fmt_bpow; lia|simpl; lra]|]. apply rnd_le; [apply (fmt_bpow 0); lia|lra].
Qed.
Lemma diagonal_tab2 {N : Num} n (f : nat -> nat -> N) : (1 <= n)%nat -> diagonal (tab2 n n f) = tab n (fun i => f i i).
Proof.
  intros H. unfold diagonal. rewrite (rows_tab2 n), (cols_tab2 n H), Nat.min_id. apply tab_ext. intros i Hi. now rewrite mget_tab.
Qed.
Lemma check_shape_tab2 {N : Num} p (f : nat -> nat -> N) : check_shape p (tab2 p p f) = Ok tt.
Proof.
  unfold check_shape. rewrite (rows_tab2 p), Nat.eqb_refl. cbn [andb].
  replace (forallb (fun r => Nat.eqb (length r) p) (tab2 p p f)) with true; [reflexivity|]. symmetry. apply forallb_forall.
  intros r Hr. unfold tab2, tab in Hr. apply in_map_iff in Hr. destruct Hr as (i & <- & _). rewrite map_length, seq_length. apply Nat.eqb_refl.
Qed.
Lemma flat_map_len {A B} (h : A -> list B) l k : (forall a, In a l -> (length (h a) <= k)%nat) -> (length (flat_map h l) <= length l * k)%nat.
Proof.
  induction l as [|a l IH]; intros H; cbn [flat_map length]; [lia|]. rewrite app_length.
  pose proof (H a (or_introl eq_refl)). specialize (IH (fun b Hb => H b (or_intror Hb))). simpl. lia.
Qed.
Lemma masked_bd p mask (f : nat -> nat -> NumB) e : (forall i j, (i < p)%nat -> (j < p)%nat -> bd e (f i j)) ->
  Forall (bd e) (masked p mask (tab2 p p f)) /\ (length (masked p mask (tab2 p p f)) <= p * p)%nat.
Proof.
  intros H. split.
  - apply Forall_forall. intros x Hx. unfold masked in Hx. apply in_flat_map in Hx. destruct Hx as (i & Hi & Hx). apply in_flat_map in Hx.
    destruct Hx as (j & Hj & Hx). apply in_seq in Hi. apply in_seq in Hj. destruct (mask i j); [|contradiction]. destruct Hx as [<-|[]].
    rewrite mget_tab by lia. apply H; lia.
  - unfold masked. etransitivity; [apply (flat_map_len _ _ p)|rewrite seq_length; lia].
    intros i _. etransitivity; [apply (flat_map_len _ _ 1)|rewrite seq_length; lia]. intros j _. destruct (mask i j); simpl; lia.
Qed.
Lemma shr_read p r nb a delta target diff : (1 <= p)%nat -> (Z.of_nat p <= 2 ^ 20)%Z -> unit64 delta -> raw_ok p (fc a) ->
  exists f, shr_cov (mkShrP r delta target diff) (f_ewa_d (N := NumB) p r nb a) = Ok (tab2 p p f) /\
    (forall i j, (i < p)%nat -> (j < p)%nat -> bd 1008 (f i j)) /\ (forall i, (i < p)%nat -> 0 <= val (f i i)).
Proof.
  intros P1 P2 HU RO. unfold shr_cov, f_ewa_d, f_emp_d.
  cbn [getI getN getM dget String.eqb Ascii.eqb Bool.eqb bind app fst snd shr_target shr_delta].
  destruct RO as [RB RN]. destruct (String.eqb target "identity"); cbn [bind].
  - destruct (bd_trace p P1 P2 (fc a) 463) as [BT NT]; [lia|lia|intros i Hi'; now apply RB|]. specialize (NT RN).
    set (tr := mtrace (tab2 p p (fc a))) in *. change (463 + 20)%Z with 483%Z in BT.
    destruct (trace_over_p p P1 P2 483 tr BT ltac:(lia)) as [BM NM]. specialize (NM NT). set (mu := ndiv tr (nofn p)) in *.
    unfold madd, mscale, mmap, meye. rewrite !map_tab2, bc2_tab. eexists. split; [reflexivity|].
    assert (T : forall i j, bd 483 (nmul delta (nmul mu (if Nat.eqb i j then n1 else n0))) /\ 0 <= val (nmul delta (nmul mu (if Nat.eqb i j then n1 else n0)))).
    { intros i j. destruct (bd_eye p P1 483 mu i j BM ltac:(lia) NM) as [A B]. destruct (bd_mul 0 483 delta _ (unit_bd _ HU) A ltac:(lia)) as [X Y].
      split; [exact X|]. rewrite Y. apply rnd_nonneg. apply Rmult_le_pos; [apply HU|exact B]. }
    destruct (mixed_gen p P1 (fc a) (conj RB RN) 483 delta (fun i j => nmul delta (nmul mu (if Nat.eqb i j then n1 else n0))) ltac:(lia) HU) as [X Y].
    + intros i j _ _. apply T.
    + intros i _. apply T.
    + split; [intros i j Hi Hj; apply bd_le with (483 + 1)%Z; [now apply X|lia]|exact Y].
  - rewrite (diagonal_tab2 p _ P1), map_tab. set (d := fun i => nsqrt (np_max (fc a i i) (nlit 1 12))).
    destruct bd_floor as [Ff [Lf Uf]].
    assert (D : forall i, (i < p)%nat -> fin (d i) /\ b2 (-20) <= val (d i) <= b2 232).
    { intros i Hi. pose proof (RB i i Hi Hi) as [Fc Bc]. specialize (RN i Hi). rewrite Rabs_right in Bc by lra.
      assert (K : fin (np_max (fc a i i) (nlit 1 12)) /\ b2 (-40) <= val (np_max (fc a i i) (nlit 1 12)) <= b2 464).
      { assert (G1 : 1 <= b2 464) by (change 1 with (b2 0); apply bpow_le; lia). assert (G2 : b2 463 <= b2 464) by (apply bpow_le; lia).
        assert (H1 : nisnan (fc a i i) = false) by (clear - Fc; destruct (fc a i i); try reflexivity; discriminate Fc).
        assert (H2 : nisnan (nlit (N := NumB) 1 12) = false) by (clear - Ff; destruct (nlit (N := NumB) 1 12); try reflexivity; discriminate Ff).
        unfold np_max. rewrite H1, H2. rewrite ltb_fin by assumption. destruct (Rlt_bool_spec (val (fc a i i)) (val (nlit (N := NumB) 1 12))); [split; [exact Ff|lra]|split; [exact Fc|lra]]. }
      destruct K as [Fk [Lk Uk]]. pose proof (bpow_gt_0 radix2 (-40)). destruct (fin_sqrt _ Fk ltac:(lra)) as [Fs Vs]. unfold d. split; [exact Fs|]. rewrite Vs. split.
      - apply rnd_ge; [apply fmt_bpow; lia|]. rewrite <- (sqrt_square (b2 (-20))) by apply bpow_ge_0. apply sqrt_le_1_alt. rewrite <- bpow_plus. exact Lk.
      - apply rnd_le; [apply fmt_bpow; lia|]. rewrite <- (sqrt_square (b2 232)) by apply bpow_ge_0. apply sqrt_le_1_alt. rewrite <- bpow_plus. exact Uk. }
    assert (DD : forall i j, (i < p)%nat -> (j < p)%nat -> bd 464 (nmul (d i) (d j)) /\ b2 (-40) <= val (nmul (d i) (d j))).
    { intros i j Hi Hj. destruct (D i Hi) as (Fi & Li & Ui). destruct (D j Hj) as (Fj & Lj & Uj). pose proof (bpow_gt_0 radix2 (-20)) as B20.
      destruct (bd_mul 232 232 (d i) (d j)) as [A V]; [split; [exact Fi|rewrite Rabs_right; lra]|split; [exact Fj|rewrite Rabs_right; lra]|lia|].
      split; [exact A|]. rewrite V. apply rnd_ge; [apply fmt_bpow; lia|]. replace (b2 (-40)) with (b2 (-20) * b2 (-20)) by (rewrite <- bpow_plus; reflexivity).
      apply Rmult_le_compat; lra. }
    rewrite outer_tab. unfold mdiv. rewrite bc2_tab. cbn [bind]. rewrite check_shape_tab2. cbn [bind].
    assert (CB : forall i j, (i < p)%nat -> (j < p)%nat -> bd 503 (ndiv (fc a i j) (nmul (d i) (d j)))).
    { intros i j Hi Hj. destruct (DD i j Hi Hj) as [[F _] Lo]. apply (bd_div_lo 463 40); [now apply RB|exact F|exact Lo|lia]. }
    set (off := masked p _ _). destruct (masked_bd p (fun i j => negb (Nat.eqb i j)) _ _ CB) as [OB OL]. fold off in OB, OL.
    set (rbar := match off with [] => n0 | _ => vmean off end).
    assert (BR : bd 543 rbar).
    { unfold rbar. destruct off as [|o1 off'] eqn:Eo; [apply bd_0|]. unfold vmean.
      assert (PP : (Z.of_nat (length (o1 :: off')) <= 2 ^ 40)%Z).
      { apply Z.le_trans with (Z.of_nat (p * p)); [lia|]. rewrite Nat2Z.inj_mul. change (2 ^ 40)%Z with (2 ^ 20 * 2 ^ 20)%Z. apply Z.mul_le_mono_nonneg; lia. }
      destruct (bd_vsum_k 40 (o1 :: off') 503 ltac:(lia) ltac:(lia) ltac:(lia) OB PP) as [B _].
      destruct (fin_nofn (length (o1 :: off'))) as [Fl Vl]; [apply Z.le_trans with (2 ^ 40)%Z; [exact PP|apply Z.leb_le; reflexivity]|].
      apply (bd_div 543); [exact B|exact Fl| |lia]. rewrite Vl. change 1 with (INR 1). apply le_INR. simpl. lia. }
    assert (ET : mscale rbar (tab2 p p (fun i j : nat => nmul (d i) (d j))) = tab2 p p (fun i j => nmul rbar (nmul (d i) (d j)))) by (unfold mscale, mmap; now rewrite map_tab2).
    rewrite ET. rewrite (rows_tab2 p), (cols_tab2 p P1).
    unfold madd. unfold mscale, mmap. rewrite !map_tab2, bc2_tab. eexists. split; [reflexivity|].
    assert (T : forall i j, (i < p)%nat -> (j < p)%nat ->
        bd 1007 (nmul delta (if Nat.eqb i j then mget (tab2 p p (fc a)) i i else mget (tab2 p p (fun i j => nmul rbar (nmul (d i) (d j)))) i j)) ).
    { intros i j Hi Hj. apply (bd_mul 0 1007); [now apply unit_bd| |lia]. rewrite !mget_tab by assumption. destruct (Nat.eqb i j).
      - apply bd_le with 463%Z; [now apply RB|lia].
      - apply (bd_mul 543 464); [exact BR|now apply DD|lia]. }
    destruct (mixed_gen p P1 (fc a) (conj RB RN) 1007 delta
      (fun i j => nmul delta (if Nat.eqb i j then mget (tab2 p p (fc a)) i i else mget (tab2 p p (fun i j => nmul rbar (nmul (d i) (d j)))) i j)) ltac:(lia) HU) as [X Y].
    + exact T.
    + intros i Hi. rewrite Nat.eqb_refl, mget_tab by assumption. destruct (bd_mul 0 463 delta (fc a i i) (unit_bd _ HU) (RB i i Hi Hi) ltac:(lia)) as [_ V].
      rewrite V. apply rnd_nonneg. apply Rmult_le_pos; [apply HU|now apply RN].
    + split; [intros i j Hi Hj; apply X; assumption|exact Y].
Qed.
Theorem C77_shrunk_stays_finite p r delta target diff rows :
  (1 <= p)%nat -> (Z.of_nat p <= 2 ^ 20)%Z -> rate64 r -> finite64 delta -> 0 <= real64 delta <= 1 ->
  rows_of_length p rows -> absorbed diff rows <> [] -> rows_within (pow2 230) (absorbed diff rows) ->
  exists o loc cov, fitted64 (C := Shrunk) (mkShrP r delta target diff) rows o /\ finite_attributes p o loc cov /\ variances_nonneg p cov.
Proof.
  intros P1 P2 HR Fd Hd Hr Hx Hw. destruct (burn_ok r (rate_fin _ HR) (conj (rate_lo _ HR) (rate_hi _ HR))) as (nb & Eb & Nb & _).
  apply (fit64 (C := Shrunk) (fun b => mkShrP r delta target b) ltac:(split; [reflexivity|repeat split; intros; first [discriminate|reflexivity]])
    p nb r (f_ewa_d p r nb) (f_ewa r nb) f0 (fun a => a)); auto.
  - cbn. unfold ewa_init. rewrite Eb. reflexivity.
  - intros a x. apply (ewa_update_tab p r nb a x).
  - intros a _ RO. destruct (shr_read p r nb a delta target false P1 P2 (conj Fd Hd) RO) as (f & E & X & Y). exists f. split; [exact E|]. split; [|exact Y].
    intros i j Hi Hj. apply bd_le with 1008%Z; [now apply X|lia].
Qed.

(** ** LedoitWolf *)
Definition lw_q {N : Num} (p : nat) (a : fst3 (N := N)) (x : nat -> N) : N :=
  ndiv (msum (tab2 p p (fun i j => nsq (nsub (nmul (nsub (x i) (fm_ a i)) (nsub (x j) (fm_ a j))) (fc a i j))))) (nofn p).
Definition lw_step {N : Num} (p : nat) (r : N) (nb : nat) (w : fst3 (N := N) * N) (x : nat -> N) : fst3 (N := N) * N :=
  (f_ewa r nb (fst w) x, if Nat.ltb (fn (fst w)) nb then snd w else nadd (nmul (nsub n1 r) (snd w)) (nmul r (lw_q p (fst w) x))).
Definition lw_d {N : Num} (p : nat) (r : N) (nb : nat) (w : fst3 (N := N) * N) : dict N :=
  (f_emp_d p (fst w) ++ [("r"%string, VNum r); ("n_burn"%string, VInt nb); ("pi_bar"%string, VNum (snd w))])%list.
Lemma lw_update_tab {N : Num} p (r : N) nb w x : lw_update (lw_d p r nb w) (tab p x) = Ok (lw_d p r nb (lw_step p r nb w x)).
Proof.
  destruct w as [a pi]. unfold lw_update, lw_d, lw_step. cbn [fst snd]. unfold f_emp_d at 1 2 3 4.
  cbn [getI getN getV getM getT getN_default dget String.eqb Ascii.eqb Bool.eqb bind app fst snd]. unfold f_ewa.
  destruct (Nat.ltb (fn a) nb).
  - rewrite (emp_update_tab p _ a x) by reflexivity. reflexivity.
  - unfold f_emp_d at 1 2 3. cbn [getI getN getV getM getT getN_default dget String.eqb Ascii.eqb Bool.eqb bind app fst snd].
    unfold vsub at 1. rewrite bc_tab. cbn [bind]. rewrite outer_tab. unfold msub. rewrite bc2_tab. cbn [bind].
    unfold mmap at 1. rewrite map_tab2. unfold vscale. rewrite !map_tab.
    unfold vadd. rewrite bc_tab. cbn [bind]. unfold mscale, mmap. rewrite !map_tab2.
    unfold madd. rewrite bc2_tab. reflexivity.
Qed.
Lemma bd_msum p (f : nat -> nat -> NumB) e : (1 <= p)%nat -> (Z.of_nat p <= 2 ^ 20)%Z -> (-1074 <= e)%Z -> (e + 40 <= 1023)%Z ->
  (forall i j, (i < p)%nat -> (j < p)%nat -> bd e (f i j) /\ 0 <= val (f i j)) ->
  bd (e + 40) (msum (tab2 p p f)) /\ 0 <= val (msum (tab2 p p f)).
Proof.
  intros P1 P2 He Hb H. unfold msum, tab2. rewrite map_tab.
  assert (A : forall i, (i < p)%nat -> bd (e + 20) (vsum (tab p (f i))) /\ 0 <= val (vsum (tab p (f i)))).
  { intros i Hi. destruct (bd_vsum (tab p (f i)) e) as [X Y]; [lia|lia|apply Forall_tab; intros j Hj; now apply H|rewrite tab_length; exact P2|].
    split; [exact X|]. apply Y. apply Forall_tab. intros j Hj. now apply H. }
  destruct (bd_vsum (tab p (fun i => vsum (tab p (f i)))) (e + 20)) as [X Y]; [lia|lia|apply Forall_tab; intros i Hi; now apply A|rewrite tab_length; exact P2|].
  replace (e + 40)%Z with (e + 20 + 20)%Z by lia. split; [exact X|]. apply Y. apply Forall_tab. intros i Hi. now apply A.
Qed.
Lemma bd_sq e (x : NumB) : bd e x -> (-1074 <= e + e <= 1023)%Z -> bd (e + e) (nsq x) /\ 0 <= val (nsq x).
Proof. intros H He. unfold nsq. destruct (bd_mul e e x x H H He) as [A V]. split; [exact A|]. rewrite V. apply rnd_nonneg. nra. Qed.
Lemma lw_q_bd p a x : (1 <= p)%nat -> (Z.of_nat p <= 2 ^ 20)%Z -> raw_ok p (fc a) -> (forall i, (i < p)%nat -> bd 231 (fm_ a i)) ->
  (forall i, (i < p)%nat -> bd 230 (x i)) -> bd 970 (lw_q p a x) /\ 0 <= val (lw_q p a x).
Proof.
  intros P1 P2 [RB _] HM HX. unfold lw_q. destruct (bd_msum p (fun i j => nsq (nsub (nmul (nsub (x i) (fm_ a i)) (nsub (x j) (fm_ a j))) (fc a i j))) 930 P1 P2) as [A B]; [lia|lia| |].
  - intros i j Hi Hj. apply (bd_sq 465); [|lia].
    assert (D : forall k, (k < p)%nat -> bd 232 (nsub (x k) (fm_ a k))).
    { intros k Hk. apply (bd_sub 231); [apply bd_le with 230%Z; [now apply HX|lia]|now apply HM|lia]. }
    apply (bd_sub 464); [apply (bd_mul 232 232); [now apply D|now apply D|lia]|apply bd_le with 463%Z; [now apply RB|lia]|lia].
  - destruct (trace_over_p p P1 P2 970 _ A ltac:(lia)) as [X Y]. split; [exact X|now apply Y].
Qed.
(** the running mean of the dispersions never exceeds twice their bound *)
Lemma pi_step (r pi q : NumB) : rate64 r -> bd 971 pi -> 0 <= val pi -> bd 970 q -> 0 <= val q ->
  bd 971 (nadd (nmul (nsub n1 r) pi) (nmul r q)) /\ 0 <= val (nadd (nmul (nsub n1 r) pi) (nmul r q)).
Proof.
  intros HR Bp Np Bq Nq. pose proof (rate_lo r HR) as Lo. pose proof (rate_hi r HR) as Hi. pose proof (rate_fin r HR) as Fr.
  assert (Pr : 0 < val r) by (apply Rlt_le_trans with r_lo; [apply bpow_gt_0|exact Lo]).
  destruct (one_minus_r r Fr Pr Hi) as (Fs & _ & Es & Us). set (s := nsub n1 r) in *.
  assert (BS : bd 0 s) by (split; [exact Fs|rewrite Rabs_right by lra; simpl; lra]).
  assert (BR : bd 0 r) by (split; [exact Fr|rewrite Rabs_right by lra; simpl; lra]).
  destruct (bd_mul 0 971 s pi BS Bp ltac:(lia)) as [B1 V1]. destruct (bd_mul 0 970 r q BR Bq ltac:(lia)) as [B2 V2].
  destruct (bd_add 971 _ _ B1 (bd_le _ 971 _ B2 ltac:(lia)) ltac:(lia)) as [[F3 _] V3]. rewrite V1, V2 in V3.
  destruct Bp as [_ Bp]. destruct Bq as [_ Bq]. rewrite Rabs_right in Bp, Bq by lra.
  set (Q := b2 970) in *. assert (Q2 : b2 971 = 2 * Q) by (unfold Q; change 2 with (b2 1); rewrite <- bpow_plus; f_equal; lia). rewrite Q2 in Bp.
  assert (QP : 1 <= Q) by (unfold Q; change 1 with (b2 0); apply bpow_le; lia).
  pose proof u53_pos as UP. pose proof u53_val as UV. pose proof eta_pos as EP.
  assert (EL : eta <= u53) by (unfold eta; replace u53 with (b2 (-53)) by (unfold u53; simpl; lra); apply bpow_le; lia).
  assert (RL : / 1073741824 <= val r) by (replace (/ 1073741824) with r_lo by (unfold r_lo; simpl; lra); exact Lo).
  pose proof (rnd_err (val s * val pi)) as E1. pose proof (rnd_err (val r * val q)) as E2.
  assert (N1 : 0 <= val s * val pi) by (apply Rmult_le_pos; lra). assert (N2 : 0 <= val r * val q) by (apply Rmult_le_pos; lra).
  rewrite (Rabs_right (val s * val pi)) in E1 by lra. rewrite (Rabs_right (val r * val q)) in E2 by lra.
  assert (S1 : val s <= 1 - val r + u53) by (apply Rabs_le_inv in Es; lra).
  assert (P1 : val s * val pi <= (1 - val r + u53) * (2 * Q)) by (apply Rmult_le_compat; lra).
  assert (P1' : val s * val pi <= 2 * Q) by (apply Rle_trans with (1 * (2 * Q)); [apply Rmult_le_compat; lra|lra]).
  assert (P2 : val r * val q <= val r * Q) by (apply Rmult_le_compat_l; lra).
  assert (P2' : val r * Q <= Q) by nra.
  assert (E1' : rnd (val s * val pi) <= val s * val pi + (2 * (u53 * Q) + u53 * Q)).
  { apply Rabs_le_inv in E1. assert (u53 * (val s * val pi) <= u53 * (2 * Q)) by (apply Rmult_le_compat_l; lra).
    assert (u53 * 1 <= u53 * Q) by (apply Rmult_le_compat_l; lra). lra. }
  assert (E2' : rnd (val r * val q) <= val r * val q + (u53 * Q + u53 * Q)).
  { apply Rabs_le_inv in E2. assert (u53 * (val r * val q) <= u53 * Q) by (apply Rmult_le_compat_l; lra).
    assert (u53 * 1 <= u53 * Q) by (apply Rmult_le_compat_l; lra). lra. }
  assert (RQ : / 1073741824 * Q <= val r * Q) by (apply Rmult_le_compat_r; lra).
  assert (T : rnd (val s * val pi) + rnd (val r * val q) <= 2 * Q).
  { assert (X : (1 - val r + u53) * (2 * Q) = 2 * Q - 2 * (val r * Q) + 2 * (u53 * Q)) by ring. rewrite X in P1.
    assert (UQ : u53 * Q = / 9007199254740992 * Q) by (now rewrite UV). lra. }
  assert (T0 : 0 <= rnd (val s * val pi) + rnd (val r * val q)) by (apply Rplus_le_le_0_compat; now apply rnd_nonneg).
  split; [split; [exact F3|]|rewrite V3; now apply rnd_nonneg].
  rewrite V3. apply rnd_abs_le; [apply fmt_bpow; lia|]. rewrite Rabs_right by lra. rewrite Q2. exact T.
Qed.
Lemma lw_fst {N : Num} p (r : N) nb xs w : fst (fold_left (lw_step p r nb) xs w) = fold_left (f_ewa r nb) xs (fst w).
Proof. revert w. induction xs as [|x xs IH]; intros w; cbn [fold_left]; [reflexivity|]. now rewrite IH. Qed.
Lemma lw_pi p r nb xs : (1 <= p)%nat -> (Z.of_nat p <= 2 ^ 20)%Z -> rate64 r -> (5 <= nb <= 250)%nat -> within p (b2 230) xs ->
  bd 971 (snd (fold_left (lw_step p r nb) xs (f0, n0 (N := NumB)))) /\ 0 <= val (snd (fold_left (lw_step p r nb) xs (f0, n0 (N := NumB)))).
Proof.
  intros P1 P2 HR Nb. induction xs as [|x xs IH] using rev_ind; intros W.
  - cbn [fold_left snd]. split; [apply bd_0|]. destruct fin_0 as [_ ->]. lra.
  - destruct (within_snoc _ _ _ _ W) as [W1 W2]. specialize (IH W1). destruct (raw_ewa p r nb xs HR Nb W1) as [RO FM].
    rewrite fold_left_app. cbn [fold_left]. set (w := fold_left (lw_step p r nb) xs (f0, n0)) in *.
    assert (Ew : fst w = fold_left (f_ewa r nb) xs f0) by (unfold w; now rewrite lw_fst). rewrite <- Ew in RO, FM.
    unfold lw_step. cbn [snd]. destruct (Nat.ltb (fn (fst w)) nb); [exact IH|]. destruct IH as [B NN].
    destruct (lw_q_bd p (fst w) x P1 P2 RO FM) as [Bq Nq]; [intros i Hi; exact (W2 i Hi)|]. now apply pi_step.
Qed.
Lemma lw_read p r nb w : (1 <= p)%nat -> (Z.of_nat p <= 2 ^ 20)%Z -> rate64 r -> raw_ok p (fc (fst w)) -> bd 971 (snd w) ->
  exists f, lw_cov (lw_d (N := NumB) p r nb w) = Ok (tab2 p p f) /\
    (forall i j, (i < p)%nat -> (j < p)%nat -> bd 484 (f i j)) /\ (forall i, (i < p)%nat -> 0 <= val (f i i)).
Proof.
  intros P1 P2 HR [RB RN] BP. destruct w as [a pi]. cbn [fst snd] in *. unfold lw_cov, lw_d, f_emp_d.
  cbn [getI getN getM getN_default dget String.eqb Ascii.eqb Bool.eqb bind app fst snd].
  destruct (bd_trace p P1 P2 (fc a) 463) as [BT NT]; [lia|lia|intros i Hi'; now apply RB|]. specialize (NT RN).
  set (tr := mtrace (tab2 p p (fc a))) in *. change (463 + 20)%Z with 483%Z in BT.
  destruct (trace_over_p p P1 P2 483 tr BT ltac:(lia)) as [BM NM]. specialize (NM NT). set (mu := ndiv tr (nofn p)) in *.
  unfold mscale at 1. unfold meye at 1. unfold mmap at 1. rewrite map_tab2. unfold msub. rewrite bc2_tab. cbn [bind].
  assert (EM : forall g : nat -> nat -> NumB, mmap nsq (tab2 p p g) = tab2 p p (fun i j => nsq (g i j))) by (intros g; unfold mmap; apply map_tab2).
  rewrite !EM.
  destruct (bd_msum p (fun i j => nsq (nsub (fc a i j) (nmul mu (if Nat.eqb i j then n1 else n0)))) 968 P1 P2 ltac:(lia) ltac:(lia)) as [BD ND].
  { intros i j Hi Hj. apply (bd_sq 484); [|lia]. apply (bd_sub 483); [apply bd_le with 463%Z; [now apply RB|lia]|apply (bd_eye p P1 483); auto; lia|lia]. }
  set (ms := msum _) in *. change (968 + 40)%Z with 1008%Z in BD.
  destruct (trace_over_p p P1 P2 1008 ms BD ltac:(lia)) as [B2 N2]. specialize (N2 ND). set (d2 := ndiv ms (nofn p)) in *.
  destruct fin_0 as [F0 V0].
  destruct (nleb d2 n0 || nleb pi n0)%bool eqn:E.
  - exists (fc a). split; [reflexivity|]. split; [intros i j Hi Hj; apply bd_le with 463%Z; [now apply RB|lia]|exact RN].
  - apply orb_false_iff in E. destruct E as [E1 _]. rewrite leb_fin in E1 by (apply B2 || exact F0). rewrite V0 in E1.
    assert (D0 : val d2 <> 0) by (intros K; rewrite K, Rle_bool_true in E1 by lra; discriminate).
    assert (BR : bd 0 r).
    { pose proof (rate_lo r HR) as Lo. pose proof (rate_hi r HR) as Hi. assert (0 < val r) by (apply Rlt_le_trans with r_lo; [apply bpow_gt_0|exact Lo]).
      split; [exact (rate_fin r HR)|rewrite Rabs_right by lra; simpl; lra]. }
    destruct (bd_mul 971 0 pi r BP BR ltac:(lia)) as [B3 _].
    assert (FB : fin (py_min (nmul pi r) d2)) by (unfold py_min; destruct (nltb d2 (nmul pi r)); [apply B2|apply B3]).
    pose proof (np_clip_unit _ (div_not_nan _ _ FB (bd_fin _ _ B2) D0)) as RU.
    set (rho := np_clip _ n0 n1) in *. destruct (bd_mul 0 483 rho mu (unit_bd _ RU) BM ltac:(lia)) as [B7 V7].
    destruct (mixed p P1 (fc a) (conj RB RN) rho (nmul rho mu) RU B7) as (E & X & Y).
    { rewrite V7. apply rnd_nonneg. apply Rmult_le_pos; [apply RU|exact NM]. }
    eexists. split; [exact E|]. split; [exact X|exact Y].
Qed.
Theorem C77_ledoit_wolf_stays_finite p r diff rows :
  (1 <= p)%nat -> (Z.of_nat p <= 2 ^ 20)%Z -> rate64 r -> rows_of_length p rows -> absorbed diff rows <> [] ->
  rows_within (pow2 230) (absorbed diff rows) ->
  exists o loc cov, fitted64 (C := LedoitWolf) (mkEwaP r diff) rows o /\ finite_attributes p o loc cov /\ variances_nonneg p cov.
Proof.
  intros P1 P2 HR Hr Hx Hw. destruct (burn_ok r (rate_fin _ HR) (conj (rate_lo _ HR) (rate_hi _ HR))) as (nb & Eb & Nb & _).
  apply (fit64 (C := LedoitWolf) (fun b => mkEwaP r b) ltac:(split; [reflexivity|repeat split; intros; first [discriminate|reflexivity]])
    p nb r (lw_d p r nb) (lw_step p r nb) (f0, n0) fst); auto.
  - cbn. unfold lw_init, ewa_init. cbn [ewa_r]. rewrite Eb. reflexivity.
  - intros a x. apply (lw_update_tab p r nb a x).
  - intros w Ew RO. destruct (lw_read p r nb w P1 P2 HR RO) as (f & E & X & Y).
    + rewrite Ew. apply lw_pi; auto. apply within_230; [now apply absorbed_rows|exact Hw].
    + exists f. split; [exact E|]. split; [|exact Y]. intros i j Hi Hj. apply bd_le with 484%Z; [now apply X|lia].
Qed.

(** ** C76 for the three of them *)
Theorem C76_shrinkage_variance_never_negative p r delta target diff rows :
  (1 <= p)%nat -> (Z.of_nat p <= 2 ^ 20)%Z -> rate64 r -> finite64 delta -> 0 <= real64 delta <= 1 ->
  rows_of_length p rows -> absorbed diff rows <> [] -> rows_within (pow2 230) (absorbed diff rows) ->
  (exists o cov, fitted64 (C := LedoitWolf) (mkEwaP r diff) rows o /\ covariance_ o = Ok cov /\ variances_nonneg p cov) /\
  (exists o cov, fitted64 (C := OAS) (mkEwaP r diff) rows o /\ covariance_ o = Ok cov /\ variances_nonneg p cov) /\
  (exists o cov, fitted64 (C := Shrunk) (mkShrP r delta target diff) rows o /\ covariance_ o = Ok cov /\ variances_nonneg p cov).
Proof.
  intros P1 P2 HR Fd Hd Hr Hx Hw.
  destruct (C77_ledoit_wolf_stays_finite p r diff rows P1 P2 HR Hr Hx Hw) as (o1 & l1 & c1 & A1 & (_ & B1 & _) & D1).
  destruct (C77_oas_stays_finite p r diff rows P1 P2 HR Hr Hx Hw) as (o2 & l2 & c2 & A2 & (_ & B2 & _) & D2).
  destruct (C77_shrunk_stays_finite p r delta target diff rows P1 P2 HR Fd Hd Hr Hx Hw) as (o3 & l3 & c3 & A3 & (_ & B3 & _) & D3).
  split; [|split].
  - exists o1, c1. split; [exact A1|]. split; [exact B1|exact D1].
  - exists o2, c2. split; [exact A2|]. split; [exact B2|exact D2].
  - exists o3, c3. split; [exact A3|]. split; [exact B3|exact D3].
Qed.

(** ** Beyond that range: the squares overflow although the data and the variances do not *)
(** One variable, 2^300 and -2^300: the variance is about 2^600, well inside float64; Ewa reports it, OAS reports NaN. *)
Definition large_rows : list (vec NumB) := [[b64_of (2 ^ 300)]; [b64_of (- 2 ^ 300)]].
Definition rate_half : NumB := ndiv (nofZ 1) (nofZ 2).
Lemma oas_entries {N : Num} p (r : N) nb diff rows : ewa_burn_n r = Ok nb -> rows_of_length p rows -> absorbed diff rows <> [] ->
  exists o, partial_fit (new (C := OAS) (mkEwaP r diff)) (In2 rows) = (o, Ok tt) /\
    covariance_ o = (c <- oas_cov (f_ewa_d p r nb (fold_left (f_ewa r nb) (coords (absorbed diff rows)) f0)) ;; to_symmetric c).
Proof.
  intros Eb Hr Hx. set (xs := coords (absorbed diff rows)).
  assert (Hl : length xs = length (absorbed diff rows)) by apply map_length.
  destruct (absorbed diff rows) as [|y ys] eqn:Ey; [congruence|].
  destruct (run_tab (C := OAS) (fun b => mkEwaP r b) ltac:(split; [reflexivity|repeat split; intros; first [discriminate|reflexivity]])
    (f_ewa_d p r nb) (f_ewa r nb) p f0 ltac:(cbn; unfold ewa_init; rewrite Eb; reflexivity)
    (fun a x => ewa_update_tab p r nb a x) xs diff rows (length ys) Hr) as (o & E1 & _ & _ & E4).
  - rewrite Ey. apply coords_tab. rewrite <- Ey. now apply absorbed_rows.
  - destruct xs; discriminate.
  - assert (K : fn (fold_left (f_ewa r nb) xs f0) = S (length ys)) by (rewrite fn_ewa, Hl; reflexivity). cbn. cbn in K. rewrite K. reflexivity.
  - exists o. split; [exact E1|exact E4].
Qed.
Lemma burn_half : ewa_burn_n rate_half = Ok 5%nat. Proof. vm_compute. reflexivity. Qed.
Theorem C77_shrinkage_overflow_is_silent :
  Forall (Forall finite64) large_rows /\
  (exists o cov, fitted64 (C := Ewa) (mkEwaP rate_half false) large_rows o /\ covariance_ o = Ok cov /\ is_mat 1 1 cov /\ finite64 (mget cov 0 0)) /\
  (exists o, fitted64 (C := OAS) (mkEwaP rate_half false) large_rows o /\ covariance_ o = Ok [[B754_nan : NumB]]).
Proof.
  assert (Hr : rows_of_length 1 large_rows) by repeat constructor.
  split; [repeat constructor; vm_compute; reflexivity|]. split.
  - destruct (ewa_entries (N := NumB) 1 rate_half 5 false large_rows) as (o & E1 & _ & _ & E4); [lia|exact burn_half|exact Hr|discriminate|].
    exists o. eexists. split; [exact E1|]. split; [exact E4|]. split; [apply is_mat_tab2|]. rewrite mget_tab by lia. vm_compute. reflexivity.
  - destruct (oas_entries 1 rate_half 5 false large_rows burn_half Hr) as (o & E1 & E4); [discriminate|].
    exists o. split; [exact E1|]. rewrite E4. vm_compute. reflexivity.
Qed.
(** the hypotheses of the three theorems are met, e.g. by two rows of two variables *)
Example shrinkage_rows : let rows := [[b64_of 1; b64_of 2]; [b64_of 3; b64_of (-1)]] : list (vec NumB) in
  rows_of_length 2 rows /\ absorbed false rows <> [] /\ rate64 rate_half /\ rows_within (pow2 230) (absorbed false rows) /\
  exists o loc cov, fitted64 (C := LedoitWolf) (mkEwaP rate_half false) rows o /\ finite_attributes 2 o loc cov /\ variances_nonneg 2 cov.
Proof.
  intros rows.
  assert (A : rows_of_length 2 rows) by (repeat constructor).
  assert (B : absorbed false rows <> []) by discriminate.
  assert (C : rate64 rate_half).
  { split; [vm_compute; reflexivity|]. assert (E : B2SF (rate_half : NumB) = SpecFloat.S754_finite false 4503599627370496 (-53)) by (vm_compute; reflexivity).
    unfold real64. rewrite (proj2 (B2SF_real _ _ _ E)). rewrite pow2_bpow. simpl. lra. }
  assert (G : 16 <= pow2 230) by (rewrite pow2_bpow; change 16 with (b2 4); apply bpow_le; lia).
  assert (K : forall z, (Z.abs z <= 16)%Z -> finite64 (b64_of z) /\ Rabs (real64 (b64_of z)) <= pow2 230).
  { intros z Hz. destruct (fin_ofZ z) as [F V]; [apply Z.le_trans with 16%Z; [exact Hz|apply Z.leb_le; reflexivity]|]. split; [exact F|].
    unfold real64. change (B2R (b64_of z)) with (val (nofZ (n := NumB) z)). rewrite V, <- abs_IZR. apply Rle_trans with 16; [now apply IZR_le|exact G]. }
  assert (D : rows_within (pow2 230) (absorbed false rows)) by (cbn [absorbed]; unfold rows_within, rows; repeat (apply Forall_cons || apply Forall_nil); apply K; lia).
  split; [exact A|]. split; [exact B|]. split; [exact C|]. split; [exact D|].
  apply (C77_ledoit_wolf_stays_finite 2 rate_half false rows); [lia|cbn; lia|exact C|exact A|exact B|exact D].
Qed.

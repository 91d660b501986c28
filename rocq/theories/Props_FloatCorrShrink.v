(** * C107 for the shrinkage estimators: correlation_ in IEEE binary64 *)
From Coq Require Import Reals ZArith String List Bool Lia Lra Psatz.
From Flocq Require Import Core BinarySingleNaN.
From Verif Require Import Num NumBin Numpy PyVal LinalgModel StateModel BaseModel Estimators RegistryModel Spec ListLemmas BaseProofs Shapes ClassShapes
  RMat RealSpec EwaReal EmpFacts RunAvg Props_Stream Props_Shape Props_Moment FloatSpec FloatBase FloatRun FloatErr FloatAcc FloatEwa FloatDiag Props_Float FloatBound Props_FloatShrink Props_FloatCorr.
Import ListNotations.
Local Open Scope R_scope.

Lemma sym_bd_e e (a b : NumB) : (-1074 <= e <= 1021)%Z -> bd e a -> bd e b -> bd (e + 1) (ndiv (nadd a b) (nofZ 2)).
Proof. intros He A B. destruct (bd_add e a b A B) as [K _]; [lia|]. destruct fin_2 as [F2 V2]. apply bd_div; [exact K|exact F2|rewrite V2; lra|lia]. Qed.
Lemma sym_nonneg_e e (a : NumB) : (-1074 <= e <= 1021)%Z -> bd e a -> 0 <= val a -> 0 <= val (ndiv (nadd a a) (nofZ 2)).
Proof.
  intros He A H. destruct (bd_add e a a A A) as [K V]; [lia|]. destruct fin_2 as [F2 V2]. destruct (bd_div (e + 1) _ _ K F2) as [_ V3]; [rewrite V2; lra|lia|].
  rewrite V3, V2, V. apply rnd_nonneg. assert (0 <= rnd (val a + val a)) by (apply rnd_nonneg; lra). lra.
Qed.
Lemma corr_accurate_bd {C : EstClass NumB} p (o : inst C) f : (1 <= p)%nat -> covariance_ o = Ok (tab2 p p f) ->
  (forall i j, (i < p)%nat -> (j < p)%nat -> bd 485 (f i j)) -> (forall i, (i < p)%nat -> 0 <= val (f i i)) -> corr_accurate p o.
Proof.
  intros Hp HC HB HV. assert (FC : finite_cov p o (tab2 p p f)).
  { split; [exact HC|]. split; [apply is_mat_tab2|]. apply is_mat_Forall_tab2. intros i j Hi Hj. apply (HB i j Hi Hj). }
  assert (G1 : b2 485 <= b2 500) by (apply bpow_le; lia). assert (G2 : b2 485 <= b2 980) by (apply bpow_le; lia).
  assert (H1 : forall i, (i < p)%nat -> 0 <= entry64 (tab2 p p f) i i <= pow2 500).
  { intros i Hi. unfold entry64. rewrite mget_tab by auto. rewrite pow2_bpow. specialize (HV i Hi). destruct (HB i i Hi Hi) as [_ B]. unfold real64, val in *. rewrite Rabs_right in B by lra. lra. }
  assert (H2 : forall i j, (i < p)%nat -> (j < p)%nat -> Rabs (entry64 (tab2 p p f) i j) <= pow2 980).
  { intros i j Hi Hj. unfold entry64. rewrite mget_tab by auto. rewrite pow2_bpow. destruct (HB i j Hi Hj) as [_ B]. unfold real64, val in *. lra. }
  destruct (C107_accuracy o p _ Hp FC H1 H2) as (cor & E1 & E2 & E3). destruct (C107_diagonal o p _ Hp FC H1 H2) as (cor' & E1' & E4). rewrite E1 in E1'. apply Ok_inj in E1'. subst cor'.
  exists (tab2 p p f), cor. auto.
Qed.
Section Fit.
  Context {C : EstClass NumB} (mk : bool -> c_P C).
  Context (HD : (forall b, c_diff C (mk b) = b) /\ same_hooks (mk true) (mk false)).
  Context (p nb : nat) (r : NumB) {A : Type} (emb : A -> c_St C) (step : A -> (nat -> NumB) -> A) (a0 : A) (pr : A -> fst3 (N := NumB)).
  Context (H0 : c_init C (mk false) p = Ok (emb a0)).
  Context (HS : forall a x, c_update C (mk false) (emb a) (tab p x) = Ok (emb (step a x))).
  Context (HN : forall a, c_nsamples C (emb a) = Ok (fn (pr a))).
  Context (HP : forall a x, pr (step a x) = f_ewa r nb (pr a) x) (HP0 : pr a0 = f0).
  Lemma corr64 diff rows : (1 <= p)%nat -> rate64 r -> (5 <= nb <= 250)%nat -> rows_of_length p rows -> absorbed diff rows <> [] ->
    rows_within (pow2 230) (absorbed diff rows) ->
    (forall a, a = fold_left step (coords (absorbed diff rows)) a0 -> raw_ok p (fc (pr a)) ->
       exists f, c_cov C (mk false) (emb a) = Ok (tab2 p p f) /\
         (forall i j, (i < p)%nat -> (j < p)%nat -> bd 484 (f i j)) /\ (forall i, (i < p)%nat -> 0 <= val (f i i))) ->
    exists o, fitted64 (mk diff) rows o /\ corr_accurate p o.
  Proof.
    intros P1 HR Nb Hr Hx Hw HC. set (xs := coords (absorbed diff rows)) in *.
    assert (Hl : length xs = length (absorbed diff rows)) by apply map_length.
    destruct (raw_ewa p r nb xs HR Nb) as [RO Fm]; [apply within_230; [now apply absorbed_rows|exact Hw]|].
    assert (Ln : exists n, length xs = S n). { rewrite Hl. destruct (absorbed diff rows); [congruence|]. eexists. reflexivity. } destruct Ln as (n & Ln).
    destruct (run_tab (C := C) mk HD emb step p a0 H0 HS xs diff rows n Hr) as (o & E1 & _ & _ & E4).
    - unfold xs. apply coords_tab. now apply absorbed_rows.
    - destruct xs; [discriminate Ln|discriminate].
    - rewrite HN, (pr_fold nb r step pr HP), HP0, fn_ewa, Ln. reflexivity.
    - destruct (HC _ eq_refl) as (f & Ec & X & Y); [rewrite (pr_fold nb r step pr HP), HP0; exact RO|].
      rewrite Ec in E4. cbn [bind] in E4. rewrite to_symmetric_tab in E4 by exact P1. exists o. split; [exact E1|].
      eapply corr_accurate_bd; [exact P1|exact E4| |].
      + intros i j Hi Hj. apply (sym_bd_e 484); [lia|now apply X|now apply X].
      + intros i Hi. apply (sym_nonneg_e 484); [lia|now apply X|now apply Y].
  Qed.
End Fit.
Lemma shr_read_identity p r nb a delta diff : (1 <= p)%nat -> (Z.of_nat p <= 2 ^ 20)%Z -> unit64 delta -> raw_ok p (fc a) ->
  exists f, shr_cov (mkShrP r delta "identity" diff) (f_ewa_d (N := NumB) p r nb a) = Ok (tab2 p p f) /\
    (forall i j, (i < p)%nat -> (j < p)%nat -> bd 484 (f i j)) /\ (forall i, (i < p)%nat -> 0 <= val (f i i)).
Proof.
  intros P1 P2 HU RO. unfold shr_cov, f_ewa_d, f_emp_d.
  cbn [getI getN getM dget String.eqb Ascii.eqb Bool.eqb bind app fst snd shr_target shr_delta].
  destruct RO as [RB RN].
  destruct (bd_trace p P1 P2 (fc a) 463) as [BT NT]; [lia|lia|intros i Hi'; now apply RB|]. specialize (NT RN).
  set (tr := mtrace (tab2 p p (fc a))) in *. change (463 + 20)%Z with 483%Z in BT.
  destruct (trace_over_p p P1 P2 483 tr BT ltac:(lia)) as [BM NM]. specialize (NM NT). set (mu := ndiv tr (nofn p)) in *.
  unfold madd, mscale, mmap, meye. rewrite !map_tab2, bc2_tab. eexists. split; [reflexivity|].
  assert (T : forall i j, bd 483 (nmul delta (nmul mu (if Nat.eqb i j then n1 else n0))) /\ 0 <= val (nmul delta (nmul mu (if Nat.eqb i j then n1 else n0)))).
  { intros i j. destruct (bd_eye p P1 483 mu i j BM ltac:(lia) NM) as [A B]. destruct (bd_mul 0 483 delta _ (unit_bd _ HU) A ltac:(lia)) as [X Y].
    split; [exact X|]. rewrite Y. apply rnd_nonneg. apply Rmult_le_pos; [apply HU|exact B]. }
  destruct (mixed_gen p P1 (fc a) (conj RB RN) 483 delta (fun i j => nmul delta (nmul mu (if Nat.eqb i j then n1 else n0))) ltac:(lia) HU) as [X Y].
  - intros i j _ _. apply T.
  - intros i _. apply T.
  - split; [exact X|exact Y].
Qed.
(** correlation_ of LedoitWolf, OAS and identity-target Shrunk under rounding is what C107 says of any covariance_ in range *)
Theorem C107_shrinkage p r delta diff rows : (1 <= p)%nat -> (Z.of_nat p <= 2 ^ 20)%Z -> rate64 r -> finite64 delta -> 0 <= real64 delta <= 1 ->
  rows_of_length p rows -> absorbed diff rows <> [] -> rows_within (pow2 230) (absorbed diff rows) ->
  (exists o, fitted64 (C := LedoitWolf) (mkEwaP r diff) rows o /\ corr_accurate p o) /\
  (exists o, fitted64 (C := OAS) (mkEwaP r diff) rows o /\ corr_accurate p o) /\
  (exists o, fitted64 (C := Shrunk) (mkShrP r delta "identity" diff) rows o /\ corr_accurate p o).
Proof.
  intros P1 P2 HR Fd Hd Hr Hx Hw. destruct (burn_ok r (rate_fin _ HR) (conj (rate_lo _ HR) (rate_hi _ HR))) as (nb & Eb & Nb & _). split; [|split].
  - apply (corr64 (C := LedoitWolf) (fun b => mkEwaP r b) ltac:(split; [reflexivity|repeat split; intros; first [discriminate|reflexivity]])
      p nb r (lw_d p r nb) (lw_step p r nb) (f0, n0) fst); auto.
    + cbn. unfold lw_init, ewa_init. cbn [ewa_r]. rewrite Eb. reflexivity.
    + intros a x. apply (lw_update_tab p r nb a x).
    + intros w Ew RO. destruct (lw_read p r nb w P1 P2 HR RO) as (f & E & X & Y).
      * rewrite Ew. apply lw_pi; auto. apply within_230; [now apply absorbed_rows|exact Hw].
      * exists f. auto.
  - apply (corr64 (C := OAS) (fun b => mkEwaP r b) ltac:(split; [reflexivity|repeat split; intros; first [discriminate|reflexivity]])
      p nb r (f_ewa_d p r nb) (f_ewa r nb) f0 (fun a => a)); auto.
    + cbn. unfold ewa_init. rewrite Eb. reflexivity.
    + intros a x. apply (ewa_update_tab p r nb a x).
    + intros a _ RO. exact (oas_read p r nb a P1 P2 HR RO).
  - apply (corr64 (C := Shrunk) (fun b => mkShrP r delta "identity" b) ltac:(split; [reflexivity|repeat split; intros; first [discriminate|reflexivity]])
      p nb r (f_ewa_d p r nb) (f_ewa r nb) f0 (fun a => a)); auto.
    + cbn. unfold ewa_init. rewrite Eb. reflexivity.
    + intros a x. apply (ewa_update_tab p r nb a x).
    + intros a _ RO. exact (shr_read_identity p r nb a delta false P1 P2 (conj Fd Hd) RO).
Qed.

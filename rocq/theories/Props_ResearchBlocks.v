(** * C88: the closed-form maximiser of the gamma-Schur likelihood for any number of blocks of any sizes *)
From Coq Require Import Reals ZArith List Lia Lra Arith Bool.
From Verif Require Import Num Numpy LinalgModel ListLemmas RMat LinSpec Fin RealSpec Spectral MatAlg Det Contracts LinalgReal GaussSpec GaussReal ScoreReal AssessSpec AssessBlock
  ResearchModel ResearchSpec ResearchReal Props_Research ResearchRun.
Import ListNotations.
Local Open Scope R_scope.

(** The best expected log-likelihood (without the constant): -1/2 (ln det T + p). *)
Definition best_value (p : nat) (T : rmat) : R := - (1 / 2) * (ln (rdet p T) + INR p).
Definition sizes_ok (sizes : list nat) (p : nat) : Prop := Forall (fun m => (1 <= m)%nat) sizes /\ list_sum sizes = p.

Lemma total_sum sizes : forall s, total s sizes = (s + list_sum sizes)%nat.
Proof.
  induction sizes as [|m r IH]; intros s; [unfold total; cbn; lia|]. change (total s (m :: r)) with (total (s + m) r).
  change (list_sum (m :: r)) with (m + list_sum r)%nat. rewrite IH. lia.
Qed.
Lemma best_from_0 p T : best_from T p 0 = best_value p T.
Proof. unfold best_from, best_value. assert (E : rdet 0 T = 1) by (rewrite <- (rdet_I 0); apply rdet_ext; intros i j Hi; lia). rewrite E, ln_1, Nat.sub_0_r. ring. Qed.

(** The result is symmetric, and its damped conditional law in every block is the true conditional law. *)
Theorem C88_recovers_every_law (L : LinAlg NumX) T g sizes p : lawful L -> g <> 0 -> sizes_ok sizes p -> pd p T ->
  exists C, closed_form_general L (fm p p T) sizes (Fin g) = Ok (fm p p C) /\ sym p C /\ Forall (same_law T C g) (offsets 0 sizes).
Proof. intros HL Hg [Hf Hs] HT. apply closed_form_fin; auto. now rewrite total_sum. Qed.

Lemma expected_ok_inv L (HL : lawful L) log (Hlog : is_log log) T A g sizes : forall s t p v, total s sizes = p -> Forall (fun m => (1 <= m)%nat) sizes -> sym p T -> sym p A ->
  expected_loop L log (fm p p T) (fm p p A) (Fin g) (blocks_from s sizes) (Fin t) (seq 0 s) = Ok (Fin v) -> g <> 0 -> Forall (fun b => invertible (fst b) A) (offsets s sizes).
Proof.
  induction sizes as [|m sizes IH]; intros s t p v Ht Hf HT HA E Hg; cbn [offsets]; constructor.
  - inversion Hf as [|? ? Hm Hf']; subst. pose proof (total_ge sizes (s + m)) as Hge. change (total s (m :: sizes)) with (total (s + m) sizes) in *. set (p := total (s + m) sizes) in *.
    cbn [blocks_from expected_loop] in E. destruct (block_terms_fin L HL p T A g s m Hm Hge HT HA) as [(E1 & _)|(HI & _)]; [rewrite E1 in E; discriminate E|exact HI].
  - inversion Hf as [|? ? Hm Hf']; subst. pose proof (total_ge sizes (s + m)) as Hge. change (total s (m :: sizes)) with (total (s + m) sizes) in *. set (p := total (s + m) sizes) in *.
    cbn [blocks_from expected_loop] in E. destruct (block_terms_fin L HL p T A g s m Hm Hge HT HA) as [(E1 & _)|(HI & G & Sg & HLw & E1)]; rewrite E1 in E; [discriminate E|].
    cbn [bind] in E. assert (HSg : sym m Sg) by (apply (law_sym A g s m G Sg Hg); auto; intros i j Hi Hj; apply HA; lia).
    rewrite half_sym_sym in E by auto. cbn [bind] in E.
    destruct (block_value L HL log Hlog m Sg (resid T s G) Hm HSg) as [(_ & ev & lo & F1 & F2 & F3)|(_ & ev & lo & X & F1 & F2 & F3 & F4 & _ & F5)];
      rewrite F1 in E; cbn [bind] in E; rewrite F2 in E; cbn [bind] in E; rewrite F3 in E; [rewrite minus_inf_x in E; discriminate E|].
    rewrite F4 in E. cbn [bind] in E. rewrite F5, add_fin, seq_grow in E. eapply (IH (s + m)%nat); eauto.
Qed.

(** Every symmetric candidate gets a singularity error, minus infinity, or a value at most -1/2 (ln det T + p); the value is reached by the
    closed form and by nothing else, unless one of the closed form's own leading blocks is singular (then it gets the error). *)
Theorem C88_unique_maximiser (L : LinAlg NumX) (log : NumX -> NumX) T g sizes p : lawful L -> is_log log -> g <> 0 -> sizes_ok sizes p -> pd p T ->
  exists C, closed_form_general L (fm p p T) sizes (Fin g) = Ok (fm p p C) /\ sym p C /\
    ((forall b, In b (offsets 0 sizes) -> invertible (fst b) C) ->
       expected_schur_loglik L log (fm p p T) (fm p p C) sizes (Fin g) = Ok (Fin (best_value p T))) /\
    forall A, sym p A -> let r := expected_schur_loglik L log (fm p p T) (fm p p A) sizes (Fin g) in
      r = Err LinAlgError \/ r = Ok NInf \/ exists v, r = Ok (Fin v) /\ v <= best_value p T /\ (v = best_value p T <-> meq p p A C).
Proof.
  intros HL Hlog Hg [Hf Hs] HT. assert (Ht : total 0 sizes = p) by now rewrite total_sum.
  destruct (closed_form_fin L HL T g sizes p Hg Ht Hf HT) as (C & E1 & E2 & E3). exists C. split; [exact E1|]. split; [exact E2|]. unfold expected_schur_loglik.
  assert (N0 : @n0 NumX = Fin 0) by apply n0_fin. rewrite N0. unfold blocks_of.
  assert (AT : forall A, sym p A -> Forall (same_law T A g) (offsets 0 sizes) -> Forall (fun b => invertible (fst b) A) (offsets 0 sizes) ->
    expected_loop L log (fm p p T) (fm p p A) (Fin g) (blocks_from 0 sizes) (Fin 0) [] = Ok (Fin (best_value p T))).
  { intros A HA K1 K2. pose proof (expected_attained L HL log Hlog T A g sizes Hg 0%nat 0 p Ht Hf HT HA K1 K2) as K. cbn [seq] in K. rewrite K, best_from_0. do 2 f_equal. ring. }
  split. { intros HI. apply AT; auto. apply Forall_forall. exact HI. }
  intros A HA. cbn zeta. pose proof (expected_bound L HL log Hlog T A g sizes Hg 0%nat 0 p Ht Hf HT HA) as B. cbv zeta in B. cbn [seq] in B. rewrite best_from_0 in B.
  destruct B as [B|[B|(v & B1 & B2 & B3)]]; [now left|now right; left|]. right. right. exists v. split; [exact B1|]. split; [lra|]. split.
  - intros K. eapply (same_law_unique T A C g sizes Hg 0%nat p Ht HT HA E2); [intros i j Hi; lia| |exact E3]. apply B3. lra.
  - intros K. assert (SA : Forall (same_law T A g) (offsets 0 sizes)).
    { rewrite Forall_forall in E3 |- *. intros [s m] Hin. destruct (E3 _ Hin) as (B & S & H1 & H2). exists B, S. split; [exact H1|]. cbn [fst snd] in *.
      apply (law_meq C A); [|exact H2]. assert (Hge : (s + m <= p)%nat).
      { clear - Hin Ht. assert (Q : forall l o, In (s, m) (offsets o l) -> (s + m <= total o l)%nat).
        { induction l as [|x l IH]; intros o H; [destruct H|]. cbn [offsets In] in H. destruct H as [H|H].
          - injection H as <- <-. unfold total. cbn [fold_left]. apply (total_ge l).
          - apply (IH (o + x)%nat) in H. exact H. }
        rewrite <- Ht. now apply (Q sizes 0%nat). }
      intros i j Hi Hj. symmetry. apply K; lia. }
    pose proof (expected_ok_inv L HL log Hlog T A g sizes 0%nat 0 p v Ht Hf (proj1 HT) HA B1 Hg) as IV.
    pose proof (AT A HA SA IV) as Q. rewrite Q in B1. now injection B1.
Qed.

(** Full trust: the closed form at gamma = 1 is the true covariance, and its value is the ordinary Gaussian one. *)
Theorem C88_full_trust (L : LinAlg NumX) (log : NumX -> NumX) T sizes p : lawful L -> is_log log -> sizes_ok sizes p -> pd p T ->
  closed_form_general L (fm p p T) sizes (Fin 1) = Ok (fm p p T) /\
  expected_schur_loglik L log (fm p p T) (fm p p T) sizes (Fin 1) = Ok (Fin (best_value p T)).
Proof.
  intros HL Hlog HS HT. destruct (C88_unique_maximiser L log T 1 sizes p HL Hlog R1_neq_R0 HS HT) as (C & E1 & E2 & E3 & _).
  destruct HS as [Hf Hs]. assert (Ht : total 0 sizes = p) by now rewrite total_sum.
  destruct (closed_form_fin L HL T 1 sizes p R1_neq_R0 Ht Hf HT) as (C' & F1 & F2 & F3).
  assert (LT : forall b, In b (offsets 0 sizes) -> (fst b <= p)%nat).
  { intros b Hb. rewrite <- Ht. clear - Hb. assert (Q : forall l o, In b (offsets o l) -> (fst b <= total o l)%nat).
    { induction l as [|x l IH]; intros o H; [destruct H|]. cbn [offsets In] in H. destruct H as [H|H].
      - subst b. cbn [fst]. unfold total. cbn [fold_left]. pose proof (total_ge l (o + x)). unfold total in *. lia.
      - apply (IH (o + x)%nat) in H. exact H. }
    now apply Q. }
  assert (SL : Forall (same_law T T 1) (offsets 0 sizes)).
  { apply Forall_forall. intros b Hb. destruct (law_exists T 1 (fst b) (snd b)) as (B & S & H); [|exists B, S; auto]. apply pd_invertible. apply (lead_pd T p); auto. }
  assert (EQ : meq p p C' T).
  { apply (same_law_unique T C' T 1 sizes R1_neq_R0 0%nat p Ht HT F2 (proj1 HT)); auto. intros i j Hi; lia. }
  assert (EF : fm p p C' = fm p p T) by (apply fm_ext; exact EQ).
  split; [now rewrite F1, EF|]. rewrite F1 in E1. assert (EC : fm p p C = fm p p T) by (injection E1 as E1; congruence).
  rewrite <- EC. rewrite EC at 1. apply E3. intros b Hb. assert (MC : meq p p C T) by (apply fm_meq_inv; exact EC).
  destruct (pd_invertible (fst b) T) as (Ti & HI); [apply (lead_pd T p); auto|]. pose proof (LT b Hb). exists Ti. split; intros i j Hi Hj.
  - rewrite <- (proj1 HI i j Hi Hj). unfold rmul. apply rsum_ext. intros k Hk. rewrite MC by lia. reflexivity.
  - rewrite <- (proj2 HI i j Hi Hj). unfold rmul. apply rsum_ext. intros k Hk. rewrite MC by lia. reflexivity.
Qed.

(** The first block is copied, so with two blocks the value is always reached. *)
Lemma first_block T C g m rest : Forall (same_law T C g) (offsets 0 (m :: rest)) -> meq m m C T.
Proof.
  intros H. cbn [offsets] in H. inversion H as [|? ? (B & S & H1 & H2) _]; subst. cbn [fst snd] in *. intros i j Hi Hj.
  pose proof (proj2 H1 i j Hi Hj) as E1. pose proof (proj2 H2 i j Hi Hj) as E2. cbn [rsum Nat.add] in E1, E2. lra.
Qed.
Lemma invertible_ext n A A' : meq n n A A' -> invertible n A -> invertible n A'.
Proof.
  intros E (B & HI). exists B. split; intros i j Hi Hj.
  - rewrite <- (proj1 HI i j Hi Hj). unfold rmul. apply rsum_ext. intros k Hk. rewrite E by lia. reflexivity.
  - rewrite <- (proj2 HI i j Hi Hj). unfold rmul. apply rsum_ext. intros k Hk. rewrite E by lia. reflexivity.
Qed.
Theorem C88_two_blocks (L : LinAlg NumX) (log : NumX -> NumX) T g p1 p2 : lawful L -> is_log log -> g <> 0 -> (1 <= p1)%nat -> (1 <= p2)%nat -> pd (p1 + p2) T ->
  let p := (p1 + p2)%nat in
  exists C, closed_form_general L (fm p p T) [p1; p2] (Fin g) = Ok (fm p p C) /\ sym p C /\
    expected_schur_loglik L log (fm p p T) (fm p p C) [p1; p2] (Fin g) = Ok (Fin (best_value p T)).
Proof.
  intros HL Hlog Hg H1 H2 HT p. assert (HS : sizes_ok [p1; p2] p) by (split; [repeat constructor; auto|cbn; unfold p; lia]).
  destruct (C88_unique_maximiser L log T g [p1; p2] p HL Hlog Hg HS HT) as (C & E1 & E2 & E3 & _). exists C. split; [exact E1|]. split; [exact E2|]. apply E3.
  destruct (C88_recovers_every_law L T g [p1; p2] p HL Hg HS HT) as (C' & F1 & _ & F2). rewrite E1 in F1. assert (EQ : meq p p C C') by (apply fm_meq_inv; now injection F1).
  pose proof (first_block T C' g p1 [p2] F2) as FB. intros b Hb. cbn [offsets In] in Hb. destruct Hb as [<-|[<-|[]]]; cbn [fst]; [apply invertible_0|]. cbn [Nat.add].
  apply (invertible_ext p1 T); [|apply pd_invertible, (lead_pd T p); auto; unfold p; lia]. intros i j Hi Hj. rewrite EQ by (unfold p; lia). symmetry. now apply FB.
Qed.

(** A closed form with a singular leading block cannot be scored: the search target exists but evaluating it raises. *)
Lemma expected_law_error L (HL : lawful L) log (Hlog : is_log log) T A g sizes : g <> 0 -> forall s t p, total s sizes = p -> Forall (fun m => (1 <= m)%nat) sizes -> pd p T -> sym p A ->
  Forall (same_law T A g) (offsets s sizes) -> Exists (fun b => ~ invertible (fst b) A) (offsets s sizes) ->
  expected_loop L log (fm p p T) (fm p p A) (Fin g) (blocks_from s sizes) (Fin t) (seq 0 s) = Err LinAlgError.
Proof.
  intros Hg. induction sizes as [|m sizes IH]; intros s t p Ht Hf HT HA HSL HEx; [inversion HEx|].
  inversion Hf as [|? ? Hm Hf']; subst. pose proof (total_ge sizes (s + m)) as Hge. change (total s (m :: sizes)) with (total (s + m) sizes) in *. set (p := total (s + m) sizes) in *.
  cbn [offsets] in HSL, HEx. inversion HSL as [|? ? (B & S & HTL & HAL) HSL']; subst. cbn [fst snd] in *.
  cbn [blocks_from expected_loop].
  destruct (block_terms_fin L HL p T A g s m Hm Hge (proj1 HT) HA) as [(E & _)|(HI & G & Sg & HLw & E)]; rewrite E; [reflexivity|]. cbn [bind].
  inversion HEx as [? ? K|? ? HEx']; subst; [cbn [fst] in K; contradiction|].
  destruct (law_unique A g s m G B Sg S HI HLw HAL) as [K1 K2].
  assert (HSg : sym m Sg) by (apply (law_sym A g s m G Sg Hg); auto; intros i j Hi Hj; apply HA; lia).
  assert (HTsm : pd (s + m) T) by (apply (lead_pd T p); auto).
  pose proof (schur_pd T s m B S (proj1 HTsm) HTL HTsm) as HPS.
  assert (HPg : pd m Sg) by (apply (pd_ext m S); auto; now apply meq_sym).
  rewrite half_sym_sym by auto. cbn [bind].
  destruct (block_value L HL log Hlog m Sg (resid T s G) Hm HSg) as [(HN & _)|(HP & ev & lo & X & E1 & E2 & E3 & E4 & HX & E5)]; [contradiction|].
  rewrite E1. cbn [bind]. rewrite E2. cbn [bind]. rewrite E3, E4. cbn [bind]. rewrite E5, add_fin, seq_grow.
  exact (IH (s + m)%nat _ p eq_refl Hf' HT HA HSL' HEx').
Qed.
Theorem C88_singular_leading_block_raises (L : LinAlg NumX) (log : NumX -> NumX) T g sizes p C : lawful L -> is_log log -> g <> 0 -> sizes_ok sizes p -> pd p T ->
  closed_form_general L (fm p p T) sizes (Fin g) = Ok (fm p p C) -> (exists b, In b (offsets 0 sizes) /\ ~ invertible (fst b) C) ->
  expected_schur_loglik L log (fm p p T) (fm p p C) sizes (Fin g) = Err LinAlgError.
Proof.
  intros HL Hlog Hg HS HT E (b & Hb & HN). destruct (C88_recovers_every_law L T g sizes p HL Hg HS HT) as (C' & F1 & F2 & F3). rewrite E in F1.
  assert (EF : fm p p C = fm p p C') by (now injection F1). rewrite EF. destruct HS as [Hf Hs]. assert (Ht : total 0 sizes = p) by now rewrite total_sum.
  assert (LT : (fst b <= p)%nat).
  { rewrite <- Ht. clear - Hb. assert (Q : forall l o, In b (offsets o l) -> (fst b <= total o l)%nat).
    { induction l as [|x l IH]; intros o H; [destruct H|]. cbn [offsets In] in H. destruct H as [H|H].
      - subst b. cbn [fst]. unfold total. cbn [fold_left]. pose proof (total_ge l (o + x)). unfold total in *. lia.
      - apply (IH (o + x)%nat) in H. exact H. }
    now apply Q. }
  unfold expected_schur_loglik, blocks_of. replace (@n0 NumX) with (Fin 0 : NumX) by (symmetry; apply n0_fin).
  apply (expected_law_error L HL log Hlog T C' g sizes Hg 0%nat 0 p Ht Hf HT F2 F3). apply Exists_exists. exists b. split; [exact Hb|].
  intros K. apply HN. apply (invertible_ext (fst b) C'); auto. intros i j Hi Hj. symmetry. apply (fm_meq_inv _ _ _ _ EF); lia.
Qed.

(** Such a closed form exists: three scalar blocks, gamma = 1/2, variances 1, 3, 1 with covariance 1 between the first two. *)
Definition at_threshold : rmat := fun i j =>
  match i, j with O, O => 1 | O, 1%nat => 1 | 1%nat, O => 1 | 1%nat, 1%nat => 3 | 2%nat, 2%nat => 1 | _, _ => 0 end.
Example C88_singular_witness : exists L log C, lawful L /\ is_log log /\ pd 3 at_threshold /\
  closed_form_general L (fm 3 3 at_threshold) [1; 1; 1]%nat (Fin (1 / 2)) = Ok (fm 3 3 C) /\
  expected_schur_loglik L log (fm 3 3 at_threshold) (fm 3 3 C) [1; 1; 1]%nat (Fin (1 / 2)) = Err LinAlgError.
Proof.
  destruct lawful_satisfiable as [L HL]. destruct is_log_exists as [log Hlog]. set (T := at_threshold).
  assert (HT : pd 3 T).
  { split; [intros i j Hi Hj; destruct i as [|[|[|i]]], j as [|[|[|j]]]; try reflexivity; lia|]. intros v (i & Hi & Hv).
    replace (qf 3 T v) with ((v 0%nat + v 1%nat) * (v 0%nat + v 1%nat) + 2 * (v 1%nat * v 1%nat) + v 2%nat * v 2%nat) by (unfold qf; cbn [rsum]; unfold T, at_threshold; ring).
    assert (0 <= (v 0%nat + v 1%nat) * (v 0%nat + v 1%nat)) by apply Rle_0_sqr. assert (0 <= v 1%nat * v 1%nat) by apply Rle_0_sqr. assert (0 <= v 2%nat * v 2%nat) by apply Rle_0_sqr.
    destruct (Req_dec (v 1%nat) 0) as [Z1|Z1]; [|assert (0 < v 1%nat * v 1%nat) by (apply Rdichotomy in Z1; nra); lra].
    destruct (Req_dec (v 2%nat) 0) as [Z2|Z2]; [|assert (0 < v 2%nat * v 2%nat) by (apply Rdichotomy in Z2; nra); lra].
    assert (Z0 : v 0%nat <> 0) by (destruct i as [|[|[|i]]]; [exact Hv|contradiction|contradiction|lia]). rewrite Z1, Z2. assert (0 < v 0%nat * v 0%nat) by (apply Rdichotomy in Z0; nra). lra. }
  assert (HS : sizes_ok [1; 1; 1]%nat 3) by (split; [repeat constructor|reflexivity]).
  assert (Hg : 1 / 2 <> 0) by lra. destruct (C88_recovers_every_law L T (1 / 2) [1; 1; 1]%nat 3 HL Hg HS HT) as (C & E1 & E2 & E3).
  exists L, log, C. split; [exact HL|]. split; [exact Hlog|]. split; [exact HT|]. split; [exact E1|].
  apply (C88_singular_leading_block_raises L log T (1 / 2) [1; 1; 1]%nat 3 C HL Hlog Hg HS HT E1). exists (2, 1)%nat. split; [cbn; tauto|]. cbn [fst].
  pose proof (first_block T C (1 / 2) 1 [1; 1]%nat E3 0%nat 0%nat ltac:(lia) ltac:(lia)) as C00. cbn [offsets] in E3. inversion E3 as [|? ? _ E4]; subst. inversion E4 as [|? ? (B & S & [K1 K2] & [K3 K4]) _]; subst.
  cbn [fst snd Nat.add] in *. specialize (K1 0%nat 0%nat ltac:(lia) ltac:(lia)). specialize (K2 0%nat 0%nat ltac:(lia) ltac:(lia)). specialize (K3 0%nat 0%nat ltac:(lia) ltac:(lia)). specialize (K4 0%nat 0%nat ltac:(lia) ltac:(lia)).
  unfold rmul in K1, K3. cbn [rsum Nat.add] in K1, K2, K3, K4. unfold T, at_threshold in K1, K2, C00. pose proof (E2 0%nat 1%nat ltac:(lia) ltac:(lia)) as S01. rewrite C00 in K3.
  assert (B1 : B 0%nat 0%nat = 1) by lra. rewrite B1 in *. assert (C10 : C 1%nat 0%nat = 2) by lra. assert (C01 : C 0%nat 1%nat = 2) by lra. assert (C11 : C 1%nat 1%nat = 4) by lra.
  intros (Ci & _ & HI). pose proof (HI 0%nat 0%nat ltac:(lia) ltac:(lia)) as I0. pose proof (HI 0%nat 1%nat ltac:(lia) ltac:(lia)) as I1. unfold rmul, rI in I0, I1. cbn [rsum Nat.eqb] in I0, I1. rewrite C00, C10, C01, C11 in *. lra.
Qed.

(** ** Which of the three outcomes a candidate gets
    A block (offset, size) is good for the candidate when the covariance of the earlier coordinates is invertible and the damped conditional
    covariance is positive definite.  The first block that is not good decides: LinAlgError if the earlier coordinates are singular, otherwise -inf. *)
Definition good_block (A : rmat) (g : R) (b : nat * nat) : Prop :=
  invertible (fst b) A /\ exists B S, law A g (fst b) (snd b) B S /\ pd (snd b) S.
Lemma outcome_loop L (HL : lawful L) log (Hlog : is_log log) T A g sizes : forall s t p, total s sizes = p -> Forall (fun m => (1 <= m)%nat) sizes -> sym p T -> sym p A ->
  let r := expected_loop L log (fm p p T) (fm p p A) (Fin g) (blocks_from s sizes) (Fin t) (seq 0 s) in
  (Forall (good_block A g) (offsets s sizes) -> exists v, r = Ok (Fin v)) /\
  (forall pre b post, offsets s sizes = (pre ++ b :: post)%list -> Forall (good_block A g) pre ->
     (~ invertible (fst b) A -> r = Err LinAlgError) /\ (invertible (fst b) A -> ~ good_block A g b -> r = Ok NInf)).
Proof.
  induction sizes as [|m sizes IH]; intros s t p Ht Hf HT HA r.
  { split; [intros _; exists t; reflexivity|]. intros [|x pre] b post E; discriminate E. }
  inversion Hf as [|? ? Hm Hf']; subst. pose proof (total_ge sizes (s + m)) as Hge. subst r. change (total s (m :: sizes)) with (total (s + m) sizes) in *. set (p := total (s + m) sizes) in *.
  cbn zeta. cbn [blocks_from expected_loop offsets].
  destruct (block_terms_fin L HL p T A g s m Hm Hge HT HA) as [(E & HN)|(HI & G & Sg & HLw & E)]; rewrite E; cbn [bind].
  { split.
    - intros F. inversion F as [|? ? GB _]; subst. exfalso. exact (HN (proj1 GB)).
    - intros [|x pre] b post EQ F; injection EQ as <- EQ; [split; [reflexivity|intros HI; contradiction]|]. inversion F as [|? ? GB _]; subst. exfalso. exact (HN (proj1 GB)). }
  assert (HAsm : sym (s + m) A) by (intros i j Hi Hj; apply HA; lia).
  assert (HSg : sym m Sg).
  { destruct (Req_dec g 0) as [Z|Z]; [|now apply (law_sym A g s m G Sg)]. subst g.
    assert (B0 : meq m s G (fun _ _ => 0)).
    { apply (regression_unique A 0 s m G (fun _ _ => 0) HI (proj1 HLw)). intros i j Hi Hj. unfold rmul. rewrite rsum_zero; [ring|]. intros; ring. }
    intros i l Hi Hl. rewrite !(proj2 HLw) by auto. rewrite (HAsm (s + i)%nat (s + l)%nat) by lia. rewrite !(rsum_zero s); [reflexivity| |]; intros k Hk; rewrite B0 by auto; ring. }
  assert (GOOD : good_block A g (s, m) <-> pd m Sg).
  { split; [intros (_ & B & S & H1 & H2)|intros H; split; [exact HI|exists G, Sg; auto]]. cbn [fst snd] in *. destruct (law_unique A g s m B G S Sg HI H1 HLw) as [_ K]. now apply (pd_ext m S). }
  rewrite half_sym_sym by auto. cbn [bind].
  destruct (block_value L HL log Hlog m Sg (resid T s G) Hm HSg) as [(HNP & ev & lo & F1 & F2 & F3)|(HP & ev & lo & X & F1 & F2 & F3 & F4 & _ & F5)];
    rewrite F1; cbn [bind]; rewrite F2; cbn [bind]; rewrite F3.
  - split.
    + intros F. inversion F as [|? ? GB _]; subst. apply GOOD in GB. contradiction.
    + intros [|x pre] b post EQ F; injection EQ as <- EQ; [split; [intros HN; contradiction|intros _ _; f_equal; apply minus_inf_x]|]. inversion F as [|? ? GB _]; subst. apply GOOD in GB. contradiction.
  - rewrite F4. cbn [bind]. rewrite F5, add_fin, seq_grow.
    destruct (IH (s + m)%nat (t + - (1 / 2) * (ln (rdet m Sg) + rtrace m X)) p eq_refl Hf' HT HA) as [I1 I2]. split.
    + intros F. inversion F as [|? ? _ F']; subst. now apply I1.
    + intros [|x pre] b post EQ F; injection EQ as <- EQ.
      * split; [intros HN; contradiction|]. intros _ NG. exfalso. apply NG. now apply GOOD.
      * inversion F as [|? ? _ F']; subst. now apply (I2 pre b post).
Qed.
Theorem C88_outcome (L : LinAlg NumX) (log : NumX -> NumX) T A g sizes p : lawful L -> is_log log -> sizes_ok sizes p -> sym p T -> sym p A ->
  let r := expected_schur_loglik L log (fm p p T) (fm p p A) sizes (Fin g) in
  (Forall (good_block A g) (offsets 0 sizes) -> exists v, r = Ok (Fin v)) /\
  (forall pre b post, offsets 0 sizes = (pre ++ b :: post)%list -> Forall (good_block A g) pre ->
     (~ invertible (fst b) A -> r = Err LinAlgError) /\ (invertible (fst b) A -> ~ good_block A g b -> r = Ok NInf)).
Proof.
  intros HL Hlog [Hf Hs] HT HA. assert (Ht : total 0 sizes = p) by now rewrite total_sum.
  pose proof (outcome_loop L HL log Hlog T A g sizes 0%nat 0 p Ht Hf HT HA) as H. cbn [seq] in H. exact H.
Qed.
(** At gamma = 1 every positive definite candidate is good in every block. *)
Theorem C88_definite_candidates_are_scored (L : LinAlg NumX) (log : NumX -> NumX) T A sizes p : lawful L -> is_log log -> sizes_ok sizes p -> sym p T -> pd p A ->
  exists v, expected_schur_loglik L log (fm p p T) (fm p p A) sizes (Fin 1) = Ok (Fin v).
Proof.
  intros HL Hlog HS HT HA. apply (C88_outcome L log T A 1 sizes p HL Hlog HS HT (proj1 HA)). destruct HS as [Hf Hs]. assert (Ht : total 0 sizes = p) by now rewrite total_sum.
  apply Forall_forall. intros [s m] Hb. assert (Hge : (s + m <= p)%nat).
  { rewrite <- Ht. clear - Hb. assert (Q : forall l o, In (s, m) (offsets o l) -> (s + m <= total o l)%nat).
    { induction l as [|x l IH]; intros o H; [destruct H|]. cbn [offsets In] in H. destruct H as [H|H].
      - injection H as <- <-. unfold total. cbn [fold_left]. apply (total_ge l).
      - apply (IH (o + x)%nat) in H. exact H. }
    now apply Q. }
  assert (HAs : pd s A) by (apply (lead_pd A p); auto; lia). assert (HAsm : pd (s + m) A) by (apply (lead_pd A p); auto).
  split; [now apply pd_invertible|]. cbn [fst snd]. destruct (law_exists A 1 s m) as (B & S & H); [now apply pd_invertible|]. exists B, S. split; [exact H|]. exact (schur_pd A s m B S (proj1 HAsm) H HAsm).
Qed.
(** an indefinite candidate (second block of variance -1) scores minus infinity *)
Example C88_outcome_witness : exists L log, lawful L /\ is_log log /\
  expected_schur_loglik L log (fm 2 2 rI) (fm 2 2 (fun i j => if Nat.eqb i j then (if Nat.eqb i 0 then 1 else -1) else 0)) [1; 1]%nat (Fin 1) = Ok NInf.
Proof.
  destruct lawful_satisfiable as [L HL]. destruct is_log_exists as [log Hlog]. exists L, log. split; [exact HL|]. split; [exact Hlog|].
  set (A := fun i j : nat => if Nat.eqb i j then (if Nat.eqb i 0 then 1 else -1) else 0 : R).
  assert (HS : sizes_ok [1; 1]%nat 2) by (split; [repeat constructor|reflexivity]).
  assert (SI : sym 2 rI) by (intros i j _ _; unfold rI; now rewrite Nat.eqb_sym).
  assert (SA : sym 2 A) by (intros i j Hi Hj; destruct i as [|[|i]], j as [|[|j]]; try lia; reflexivity).
  destruct (C88_outcome L log rI A 1 [1; 1]%nat 2 HL Hlog HS SI SA) as [_ Q].
  assert (I1 : invertible 1 A). { exists rI. split; intros [|i] [|j] Hi Hj; try lia; cbn; ring. }
  destruct (Q [(0%nat, 1%nat)] (1%nat, 1%nat) [] eq_refl) as [_ R].
  { repeat constructor; cbn [fst snd]; [apply invertible_0|]. exists (fun _ _ => 0), rI. split; [split; [intros; lia|intros [|i] [|j] Hi Hj; try lia; cbn; ring]|].
    split; [intros i j _ _; unfold rI; now rewrite Nat.eqb_sym|]. intros v (i & Hi & Hv). destruct i; [|lia]. unfold qf. cbn. apply Rdichotomy in Hv. destruct Hv; nra. }
  apply R; [exact I1|]. intros (_ & B & S & H1 & HP). cbn [fst snd] in *.
  assert (S00 : S 0%nat 0%nat = -1) by (rewrite (proj2 H1 0%nat 0%nat) by lia; cbn; ring).
  assert (K : 0 < qf 1 S (fun _ => 1)) by (apply (proj2 HP); exists 0%nat; split; [lia|lra]). unfold qf in K. cbn in K. rewrite S00 in K. lra.
Qed.

(** * C84: what the likelihood assessors reward

    The Schur likelihood with a coupling strength strictly between 0 and 1 is not a proper score: it is maximal at a covariance with inflated
    cross-block entries.  At the second moment of the data itself the score increases with gamma.  The block pseudo-likelihood looks at the diagonal
    blocks only. *)
From Coq Require Import Reals ZArith String List Lia Lra Arith Bool.
From Verif Require Import Num Numpy LinalgModel BaseModel Estimators ListLemmas RMat LinSpec Fin RealSpec EwaReal EmpFacts Spectral MatAlg Det
  Contracts LinalgReal BlockSpec BlockGeom BlockReal BlockRun GaussSpec GaussReal AssessModel ScoreReal AssessSpec AssessReal AssessBlock Props_Emp Props_Score Props_Assess.
Import ListNotations.
Local Open Scope string_scope.
Local Open Scope R_scope.

(** ** Matrices *)
Lemma rtrace_rmul_lin n B X S a b : rtrace n (rmul n B (fun i j => a * X i j + b * S i j)) = a * rtrace n (rmul n B X) + b * rtrace n (rmul n B S).
Proof.
  unfold rtrace, rmul, rdot. rewrite <- !rsum_scal, <- rsum_plus. apply rsum_ext. intros i _. rewrite <- !rsum_scal, <- rsum_plus. apply rsum_ext. intros; ring.
Qed.
Lemma inverse_trace n A Ai : inverse n A Ai -> rtrace n (rmul n Ai A) = INR n.
Proof. intros H. rewrite <- rtrace_I. apply rtrace_ext, H. Qed.
Lemma stein_pair n X Xi Y : pd n X -> pd n Y -> inverse n X Xi ->
  0 <= rtrace n (rmul n Xi Y) + ln (rdet n X) - ln (rdet n Y) - INR n /\
  (rtrace n (rmul n Xi Y) + ln (rdet n X) - ln (rdet n Y) - INR n = 0 -> meq n n X Y).
Proof.
  intros HX HY HI. pose proof (inverse_pd n X Xi HX HI) as PI. destruct (stein_ineq n Xi Y PI HY) as [S1 S2].
  pose proof (pd_det_pos n Xi PI). pose proof (pd_det_pos n Y HY). pose proof (ln_inverse n X Xi HX HI).
  rewrite ln_mult in S1, S2 by auto. split; [lra|]. intros E. assert (I : inverse n Y Xi) by (apply S2; lra).
  apply (inverse_unique n Xi); split; [apply HI|apply HI|apply I|apply I].
Qed.
(** moving a covariance towards S raises the expected likelihood under S *)
Lemma toward n X Y S Xi Yi lam : pd n X -> pd n Y -> inverse n X Xi -> inverse n Y Yi -> 0 <= lam < 1 ->
  meq n n Y (fun i j => lam * X i j + (1 - lam) * S i j) ->
  ln (rdet n Y) + rtrace n (rmul n Yi S) <= ln (rdet n X) + rtrace n (rmul n Xi S) /\
  (ln (rdet n Y) + rtrace n (rmul n Yi S) = ln (rdet n X) + rtrace n (rmul n Xi S) -> meq n n X Y).
Proof.
  intros HX HY IX IY Hl E.
  assert (T1 : rtrace n (rmul n Xi Y) = lam * INR n + (1 - lam) * rtrace n (rmul n Xi S)).
  { rewrite <- (inverse_trace n X Xi IX), <- rtrace_rmul_lin. apply rtrace_ext, rmul_ext; auto using meq_refl. }
  assert (T2 : INR n = lam * rtrace n (rmul n Yi X) + (1 - lam) * rtrace n (rmul n Yi S)).
  { rewrite <- (inverse_trace n Y Yi IY), <- rtrace_rmul_lin. apply rtrace_ext, rmul_ext; auto using meq_refl. }
  destruct (stein_pair n X Xi Y HX HY IX) as [A1 A2]. destruct (stein_pair n Y Yi X HY HX IY) as [B1 _].
  set (a := rtrace n (rmul n Xi Y)) in *. set (b := rtrace n (rmul n Yi X)) in *.
  set (c := rtrace n (rmul n Xi S)) in *. set (d := rtrace n (rmul n Yi S)) in *.
  set (x := ln (rdet n X)) in *. set (y := ln (rdet n Y)) in *.
  assert (K : (1 - lam) * (x + c - y - d) = (a + x - y - INR n) + lam * (b + y - x - INR n)).
  { replace ((1 - lam) * c) with (a - lam * INR n) by lra.
    assert ((1 - lam) * d = INR n - lam * b) by lra.
    transitivity ((1 - lam) * (x - y) + (1 - lam) * c - (1 - lam) * d); [ring|]. rewrite H. rewrite T1. lra. }
  assert (0 <= lam * (b + y - x - INR n)) by (apply Rmult_le_pos; lra).
  split.
  - assert (0 <= x + c - y - d); [|lra]. apply Rmult_le_reg_l with (1 - lam); [lra|]. lra.
  - intros Eq. apply A2. assert ((1 - lam) * (x + c - y - d) = 0) by (replace (x + c - y - d) with 0 by lra; ring). lra.
Qed.
Lemma qf_rI n v : qf n rI v = rdot n v v.
Proof.
  unfold qf, rdot, rI. apply rsum_ext. intros i Hi. rewrite (rsum_ext n _ (fun j => if Nat.eqb i j then v i * v j else 0)); [now rewrite rsum_delta'|].
  intros j _. destruct (Nat.eqb i j); ring.
Qed.
Lemma bb_shift n lo S : bounded_below n lo S <-> psd n (fun i j => S i j + - lo * rI i j).
Proof.
  assert (Q : forall v, qf n (fun i j => S i j + - lo * rI i j) v = qf n S v - lo * rdot n v v).
  { intros v. rewrite (qf_plus n S (fun i j => - lo * rI i j)), qf_scal, qf_rI. ring. }
  split; intros [H1 H2]; split.
  - intros i j Hi Hj. rewrite (H1 i j) by auto. unfold rI. now rewrite Nat.eqb_sym.
  - intros v. rewrite Q. specialize (H2 v). lra.
  - intros i j Hi Hj. specialize (H1 i j Hi Hj). cbv beta in H1. unfold rI in H1. rewrite (Nat.eqb_sym j i) in H1. lra.
  - intros v. specialize (H2 v). rewrite Q in H2. lra.
Qed.
Lemma bb_damped p k g lo S : k <> O -> 0 <= g <= 1 -> bounded_below p lo S -> bounded_below p lo (damped p k g S).
Proof.
  intros Hk Hg H. apply bb_shift. apply bb_shift in H. apply (psd_ext p (damped p k g (fun i j => S i j + - lo * rI i j))); [|now apply psd_damped].
  intros i j _ _. unfold damped, rI. destruct (Nat.eqb_spec (block_of p k i) (block_of p k j)); auto.
  destruct (Nat.eqb_spec i j); [subst; contradiction|ring].
Qed.
Lemma damped_damped p k a b S : meq p p (damped p k a (damped p k b S)) (damped p k (a * b) S).
Proof. intros i j _ _. unfold damped. destruct (Nat.eqb _ _); ring. Qed.
Lemma damped_eq p k g A S : g <> 0 -> (meq p p (damped p k g A) S <-> meq p p A (damped p k (/ g) S)).
Proof.
  intros Hg. split; intros H i j Hi Hj; specialize (H i j Hi Hj); unfold damped in *; destruct (Nat.eqb _ _); auto.
  - rewrite <- H. field. auto.
  - rewrite H. field. auto.
Qed.

Section Schur.
  Context (L : LinAlg NumX) (HL : lawful L).
  Lemma schur_score p g nb interp A xs T : (1 <= p)%nat -> (1 <= nb)%Z -> interp <> "geodesic" -> xs <> [] ->
    let D := mpd L p (damped p (blocks nb p) g A) in
    pd p D /\ inverse p D (tinv L p D) /\
    assess L (SchurLikelihood (N := NumX) (Fin g) nb interp) (fm p p A) (Some (map (fv p) xs)) T = Ok (Fin (mean_loglik p D (tinv L p D) xs)).
  Proof.
    intros Hp Hn Hi Hx D. assert (P : pd p D) by (apply (bb_pd p e8); [apply e8_pos|now apply mpd_ok]).
    split; [exact P|]. split; [apply tinv_inverse; auto; [apply P|now apply pd_invertible]|].
    cbn [assess]. rewrite schur_lik_linear by auto. fold D. now apply loglik_fin.
  Qed.
  Lemma mpd_inject p A S lo : (1 <= p)%nat -> e8 < lo -> bounded_below p lo S -> sym p A -> meq p p (mpd L p A) S -> meq p p A S.
  Proof.
    intros Hp Hlo HS HA E. destruct (mpd_spec L HL p A Hp) as (U & lam & He & F). destruct (mres_ok p p _ _ F) as [_ F2].
    fold (mpd L p A) in F2.
    assert (G : forall k, (k < p)%nat -> lo <= Rmax (lam k) e8).
    { pose proof (bb_ext p lo S (spec p U (fun k => Rmax (lam k) e8))) as B. apply (spec_bb_inv p U (fun k => Rmax (lam k) e8) lo); [apply He|].
      apply B; auto. eapply meq_trans; [apply meq_sym, E|exact F2]. }
    eapply meq_trans; [|exact E]. eapply meq_trans; [apply meq_sym, (symm_id p A HA)|]. apply meq_sym.
    eapply meq_trans; [exact F2|]. eapply meq_trans; [|apply meq_sym, (eig_spec p _ U lam He)]. apply spec_ext. intros k Hk. specialize (G k Hk).
    apply Rmax_left. destruct (Rle_lt_dec e8 (lam k)); auto. rewrite Rmax_right in G by lra. lra.
  Qed.
End Schur.

(** The covariance with cross-block entries divided by gamma beats or equals every symmetric matrix, and nothing else reaches its score;
    that score is the LogLikelihood of the second moment S. *)
Theorem C84_schur_maximiser L p nb g interp S A xs T lo : lawful L -> (1 <= p)%nat -> (1 <= nb)%Z -> interp <> "geodesic" -> g <> 0 -> xs <> [] ->
  meq p p S (second_moment zero_mean xs) -> e8 < lo -> bounded_below p lo S -> sym p A ->
  let inflated := damped p (blocks nb p) (/ g) S in
  exists s best, assess L (SchurLikelihood (N := NumX) (Fin g) nb interp) (fm p p A) (Some (map (fv p) xs)) T = Ok (Fin s) /\
    assess L (SchurLikelihood (N := NumX) (Fin g) nb interp) (fm p p inflated) (Some (map (fv p) xs)) T = Ok (Fin best) /\
    assess L LogLikelihood (fm p p S) (Some (map (fv p) xs)) T = Ok (Fin best) /\
    s <= best /\ (s = best <-> meq p p A inflated).
Proof.
  intros HL Hp Hn Hi Hg Hx ES Hlo HS HA inflated.
  assert (PS : pd p S) by (apply (bb_pd p lo); auto; pose proof e8_pos; lra).
  pose proof (tinv_inverse L HL p S Hp (proj1 PS) (pd_invertible p S PS)) as IS.
  assert (LB : assess L LogLikelihood (fm p p S) (Some (map (fv p) xs)) T = Ok (Fin (mean_loglik p S (tinv L p S) xs))) by (now apply loglik_fin).
  assert (SSy : meq p p (symm S) S) by (apply symm_id, PS).
  assert (MS : meq p p (mpd L p S) S).
  { eapply meq_trans; [apply (mpd_fix L HL p S Hp)|exact SSy]. apply (bb_ext p e8 S); [now apply meq_sym|]. apply (bb_le p lo); auto; lra. }
  assert (score_at : forall B, meq p p (damped p (blocks nb p) g B) S ->
    assess L (SchurLikelihood (N := NumX) (Fin g) nb interp) (fm p p B) (Some (map (fv p) xs)) T = Ok (Fin (mean_loglik p S (tinv L p S) xs))).
  { intros B EB. destruct (schur_score L HL p g nb interp B xs T Hp Hn Hi Hx) as (_ & _ & ->). do 2 f_equal.
    rewrite (mpd_ext L p _ S EB). apply loglik_ext; [exact MS|]. rewrite (tinv_ext L p _ S MS). apply meq_refl. }
  destruct (schur_score L HL p g nb interp A xs T Hp Hn Hi Hx) as (PD & ID & EA). set (D := mpd L p (damped p (blocks nb p) g A)) in *.
  do 2 eexists. split; [exact EA|]. split; [apply score_at; now apply damped_eq|]. split; [exact LB|].
  destruct (gauss_likelihood_max p D (tinv L p D) S (tinv L p S) zero_mean xs Hx ES PS IS PD ID) as [M1 M2].
  split; [exact M1|]. split.
  - intros E. apply (damped_eq p (blocks nb p) g A S Hg). apply (mpd_inject L HL p _ S lo); auto using damped_sym.
  - intros E. apply (damped_eq p (blocks nb p) g A S Hg) in E. rewrite (score_at A E) in EA. now injection EA.
Qed.

(** The second moment of the data scores higher the closer gamma is to 1, strictly unless it has no entries across the blocks; at gamma = 1
    the score is the LogLikelihood. *)
Theorem C84_increases_with_gamma L p nb g1 g2 interp S xs T : lawful L -> (1 <= p)%nat -> (1 <= nb)%Z -> interp <> "geodesic" -> xs <> [] ->
  meq p p S (second_moment zero_mean xs) -> bounded_below p e8 S -> 0 <= g1 < g2 -> g2 <= 1 ->
  exists s1 s2, assess L (SchurLikelihood (N := NumX) (Fin g1) nb interp) (fm p p S) (Some (map (fv p) xs)) T = Ok (Fin s1) /\
    assess L (SchurLikelihood (N := NumX) (Fin g2) nb interp) (fm p p S) (Some (map (fv p) xs)) T = Ok (Fin s2) /\
    s1 <= s2 /\ (s1 = s2 <-> block_diagonal p (blocks nb p) S).
Proof.
  intros HL Hp Hn Hi Hx ES HS Hg1 Hg2. set (k := blocks nb p) in *.
  assert (Hk : k <> O) by (unfold k; pose proof (blocks_range nb p Hp); lia).
  destruct (schur_score L HL p g1 nb interp S xs T Hp Hn Hi Hx) as (P1 & I1 & E1).
  destruct (schur_score L HL p g2 nb interp S xs T Hp Hn Hi Hx) as (P2 & I2 & E2). fold k in P1, I1, E1, P2, I2, E2.
  assert (M : forall g, 0 <= g <= 1 -> meq p p (mpd L p (damped p k g S)) (damped p k g S)).
  { intros g Hg. pose proof (bb_damped p k g e8 S Hk Hg HS) as B. assert (Y : meq p p (symm (damped p k g S)) (damped p k g S)) by (apply symm_id, B).
    eapply meq_trans; [apply (mpd_fix L HL p _ Hp)|exact Y]. apply (bb_ext p e8 (damped p k g S)); auto. now apply meq_sym. }
  do 2 eexists. split; [exact E1|]. split; [exact E2|].
  set (X := mpd L p (damped p k g1 S)) in *. set (Y := mpd L p (damped p k g2 S)) in *.
  assert (EX : meq p p X (damped p k g1 S)) by (apply M; lra). assert (EY : meq p p Y (damped p k g2 S)) by (apply M; lra).
  set (lam := (1 - g2) / (1 - g1)).
  assert (Hl : 0 <= lam < 1).
  { unfold lam. split; [apply Rle_mult_inv_pos; lra|]. apply Rmult_lt_reg_r with (1 - g1); [lra|]. unfold Rdiv. rewrite Rmult_assoc, Rinv_l by lra. lra. }
  destruct (toward p X Y S (tinv L p X) (tinv L p Y) lam P1 P2 I1 I2 Hl) as [T1 T2].
  { intros i j Hi' Hj. rewrite (EX i j), (EY i j) by auto. unfold damped. destruct (Nat.eqb _ _); [ring|]. unfold lam. field. lra. }
  unfold mean_loglik. rewrite !lmean_gauss by auto.
  assert (Tr : forall B, rtrace p (rmul p B (second_moment zero_mean xs)) = rtrace p (rmul p B S)).
  { intros B. apply rtrace_ext, rmul_ext; auto using meq_refl, meq_sym. }
  rewrite !Tr. split; [lra|]. split.
  - intros E i j Hi' Hj Nb. assert (XY : meq p p X Y) by (apply T2; lra).
    specialize (XY i j Hi' Hj). rewrite (EX i j), (EY i j) in XY by auto. unfold damped in XY. destruct (Nat.eqb_spec (block_of p k i) (block_of p k j)); [contradiction|].
    assert ((g2 - g1) * S i j = 0) by lra. apply Rmult_integral in H. destruct H; lra.
  - intros BD. assert (XY : meq p p X Y).
    { eapply meq_trans; [exact EX|]. eapply meq_trans; [|apply meq_sym, EY]. intros i j Hi' Hj. unfold damped.
      destruct (Nat.eqb_spec (block_of p k i) (block_of p k j)) as [|Nb]; auto. rewrite (BD i j Hi' Hj Nb). ring. }
    rewrite (rdet_ext XY), (tinv_ext L p X Y XY). reflexivity.
Qed.

(** Improper: whenever the second moment of the data has an entry across the blocks, some positive definite matrix scores strictly higher than it,
    for every gamma strictly between 0 and 1. *)
Theorem C84_improper L p nb g interp S xs T lo : lawful L -> (1 <= p)%nat -> (1 <= nb)%Z -> interp <> "geodesic" -> xs <> [] ->
  meq p p S (second_moment zero_mean xs) -> e8 < lo -> bounded_below p lo S -> 0 < g < 1 -> ~ block_diagonal p (blocks nb p) S ->
  exists A s best, pd p A /\ ~ meq p p A S /\
    assess L (SchurLikelihood (N := NumX) (Fin g) nb interp) (fm p p S) (Some (map (fv p) xs)) T = Ok (Fin s) /\
    assess L (SchurLikelihood (N := NumX) (Fin g) nb interp) (fm p p A) (Some (map (fv p) xs)) T = Ok (Fin best) /\ s < best.
Proof.
  intros HL Hp Hn Hi Hx ES Hlo HS Hg ND. pose proof e8_pos as E8. set (k := blocks nb p) in *.
  assert (Hk : k <> O) by (unfold k; pose proof (blocks_range nb p Hp); lia).
  set (M := Rmax 1 (asum p (damped p k 0 S))).
  assert (M1 : 1 <= M) by apply Rmax_l. assert (M2 : asum p (damped p k 0 S) <= M) by apply Rmax_r.
  set (t := Rmin ((lo - e8) / M) (1 - g)).
  assert (t0 : 0 < t). { apply Rmin_glb_lt; [apply Rdiv_lt_0_compat; lra|lra]. }
  assert (t1 : t * M <= lo - e8). { apply Rle_trans with ((lo - e8) / M * M); [apply Rmult_le_compat_r; [lra|apply Rmin_l]|]. right. field. lra. }
  assert (t2 : t <= 1 - g) by apply Rmin_r.
  set (A := damped p k (1 + t) S).
  assert (BA : bounded_below p e8 A).
  { split; [apply damped_sym, HS|]. intros v. rewrite (qf_ext p A (fun i j => (1 + t) * S i j + - t * damped p k 0 S i j) v v).
    3:{ auto. } 2:{ intros i j _ _. unfold A, damped. destruct (Nat.eqb _ _); ring. }
    rewrite (qf_plus p (fun i j => (1 + t) * S i j) (fun i j => - t * damped p k 0 S i j)), !qf_scal.
    pose proof (proj2 HS v) as Q1. pose proof (qf_abs p (damped p k 0 S) v) as Q2. pose proof (Rle_abs (qf p (damped p k 0 S) v)) as Q3.
    assert (R0 : 0 <= rdot p v v) by (apply rsum_nonneg; intros; apply Rle_0_sqr).
    assert (qf p (damped p k 0 S) v <= M * rdot p v v) by (apply Rle_trans with (asum p (damped p k 0 S) * rdot p v v); [lra|now apply Rmult_le_compat_r]).
    assert (t * qf p (damped p k 0 S) v <= t * (M * rdot p v v)) by (apply Rmult_le_compat_l; lra).
    assert (t * M * rdot p v v <= (lo - e8) * rdot p v v) by (now apply Rmult_le_compat_r).
    assert (0 <= t * qf p S v). { apply Rmult_le_pos; [lra|]. assert (0 <= lo * rdot p v v) by (apply Rmult_le_pos; lra). lra. }
    lra. }
  assert (HS8 : bounded_below p e8 S) by (apply (bb_le p lo); auto; lra).
  assert (Hg' : 0 <= g < g * (1 + t)) by nra. assert (Hg1 : g * (1 + t) <= 1) by nra.
  destruct (C84_increases_with_gamma L p nb g (g * (1 + t)) interp S xs T HL Hp Hn Hi Hx ES HS8 Hg' Hg1) as (s1 & s2 & E1 & E2 & Le & Eq).
  exists A, s1, s2. split; [now apply (bb_pd p e8)|]. split.
  - intros E. apply ND. intros i j Hi' Hj Nb. specialize (E i j Hi' Hj). unfold A, damped in E. destruct (Nat.eqb_spec (block_of p k i) (block_of p k j)); [contradiction|].
    assert (t * S i j = 0) by lra. apply Rmult_integral in H. destruct H; lra.
  - split; [exact E1|]. split; [|assert (s1 <> s2) by tauto; lra].
    rewrite <- E2. cbn [assess]. rewrite !schur_lik_linear by auto. f_equal. unfold A. fold k.
    rewrite (mpd_ext L p _ _ (damped_damped p k g (1 + t) S)). reflexivity.
Qed.

(** BlockPseudoLikelihood compares diagonal blocks only: no positive definite matrix beats the second moment, and exactly those with the same diagonal
    blocks tie with it. *)
Theorem C84_block_pseudo L p bs S A xs T : lawful L -> (1 <= p)%nat -> (1 <= bs)%nat -> xs <> [] ->
  meq p p S (second_moment zero_mean xs) -> pd p S -> pd p A ->
  exists s best, assess L (BlockPseudoLikelihood (Z.of_nat bs)) (fm p p A) (Some (map (fv p) xs)) T = Ok (Fin s) /\
    assess L (BlockPseudoLikelihood (Z.of_nat bs)) (fm p p S) (Some (map (fv p) xs)) T = Ok (Fin best) /\
    s <= best /\ (s = best <-> forall i j, (i < p)%nat -> (j < p)%nat -> (i / bs = j / bs)%nat -> A i j = S i j).
Proof.
  intros HL Hp Hb Hx ES HS HA.
  destruct (C64_sum_over_blocks L p bs A xs T HL Hp Hb Hx HA) as (n & s & N & _ & HsA & EA).
  destruct (C64_sum_over_blocks L p bs S xs T HL Hp Hb Hx HS) as (n' & s' & N' & _ & HsS & ESc).
  assert (n' = n) by nia. subst n'.
  assert (SZ : forall k, (k < n)%nat -> (k * bs + Nat.min bs (p - k * bs) <= p)%nat /\ (k * bs < p)%nat).
  { intros k Hk. assert (k * bs <= (n - 1) * bs)%nat by (apply Nat.mul_le_mono_r; lia). lia. }
  assert (K : forall k, (k < n)%nat -> s k <= s' k /\ (s k = s' k <-> meq (Nat.min bs (p - k * bs)) (Nat.min bs (p - k * bs)) (block_at (k * bs) A) (block_at (k * bs) S))).
  { intros k Hk. destruct (SZ k Hk) as [Z1 Z2]. destruct (HsA k Hk) as (B & IB & ->). destruct (HsS k Hk) as (C & IC & ->).
    set (q := Nat.min bs (p - k * bs)) in *.
    assert (M : meq q q (block_at (k * bs) S) (second_moment zero_mean (map (coords_from (k * bs)) xs))).
    { intros i j Hi Hj. unfold block_at. rewrite (ES (k * bs + i)%nat (k * bs + j)%nat) by lia. unfold second_moment. rewrite map_map. reflexivity. }
    destruct (gauss_likelihood_max q (block_at (k * bs) A) B (block_at (k * bs) S) C zero_mean (map (coords_from (k * bs)) xs)) as [G1 G2]; auto.
    - destruct xs; [congruence|discriminate].
    - now apply sub_pd with p. - now apply sub_pd with p.
    - split; [exact G1|]. split; [exact G2|]. intros E. apply loglik_ext; auto.
      apply (inverse_unique q (block_at (k * bs) S)); auto. apply (inverse_ext q (block_at (k * bs) A) _ B B); auto using meq_refl. }
  exists (rsum n s), (rsum n s'). split; [exact EA|]. split; [exact ESc|]. split; [apply rsum_le; intros k Hk; now apply K|].
  split.
  - intros E i j Hi Hj Hij. pose proof (Nat.div_mod i bs ltac:(lia)) as D1. pose proof (Nat.mod_upper_bound i bs ltac:(lia)) as U1.
    pose proof (Nat.div_mod j bs ltac:(lia)) as D2. pose proof (Nat.mod_upper_bound j bs ltac:(lia)) as U2.
    set (k := (i / bs)%nat) in *. assert (Hk : (k < n)%nat) by (apply Nat.div_lt_upper_bound; lia).
    assert (Ek : s k = s' k).
    { assert (Z : rsum n (fun k => s' k - s k) = 0) by (rewrite rsum_minus; lra).
      pose proof (rsum_ge_term n (fun k => s' k - s k) k) as Q. cbv beta in Q. rewrite Z in Q. destruct (K k Hk).
      assert (s' k - s k <= 0); [|lra]. apply Q; auto. intros m Hm. destruct (K m Hm). lra. }
    apply (K k Hk) in Ek. rewrite <- Hij in D2. specialize (Ek (i mod bs)%nat (j mod bs)%nat ltac:(lia) ltac:(lia)). unfold block_at in Ek.
    replace (k * bs + i mod bs)%nat with i in Ek by lia. replace (k * bs + j mod bs)%nat with j in Ek by lia. exact Ek.
  - intros E. apply rsum_ext. intros k Hk. apply K; auto. intros i j Hi Hj. unfold block_at. destruct (SZ k Hk). apply E; try lia.
    rewrite !(Nat.add_comm (k * bs)), !Nat.div_add by lia. rewrite !Nat.div_small by lia. reflexivity.
Qed.

(** ** Witness: the rows (1,1), (1,1), (1,1), (1,-1) have second moment [[1, 1/2], [1/2, 1]], with smallest eigenvalue 1/2 and an entry across the blocks *)
Definition w_rows : list obs := [pm 1 1; pm 1 1; pm 1 1; pm 1 (-1)].
Definition w_S : rmat := fun i j => if Nat.eqb i j then 1 else 1 / 2.
Example C84_witness : meq 2 2 w_S (second_moment zero_mean w_rows) /\ e8 < 1 / 2 /\ bounded_below 2 (1 / 2) w_S /\ ~ block_diagonal 2 (blocks 2 2) w_S.
Proof.
  split; [|split; [unfold e8; lra|split; [split|]]].
  - intros i j Hi Hj. destruct i as [|[|i]]; destruct j as [|[|j]]; try lia; cbv; lra.
  - intros i j _ _. unfold w_S. now rewrite Nat.eqb_sym.
  - intros v. unfold rdot, qf, w_S. cbn [rsum Nat.eqb]. pose proof (Rle_0_sqr (v 0%nat + v 1%nat)). unfold Rsqr in *. lra.
  - intros H. specialize (H 0%nat 1%nat ltac:(lia) ltac:(lia)). assert (w_S 0%nat 1%nat = 1 / 2) by reflexivity. rewrite H in H0; [lra|]. vm_compute. discriminate.
Qed.

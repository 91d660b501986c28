(** * C90: where the closed-form maximiser of two blocks is positive definite, and what the script predicts about it *)
From Coq Require Import Reals ZArith List Lia Lra Arith Bool.
From Verif Require Import Num Numpy LinalgModel ListLemmas RMat LinSpec Fin RealSpec Spectral MatAlg Det Contracts LinalgReal GaussSpec GaussReal ScoreReal AssessSpec AssessBlock
  ResearchModel ResearchSpec ResearchReal ResearchTwo Props_Research ResearchRun Props_ResearchBlocks.
Import ListNotations.
Local Open Scope R_scope.

Lemma law_of T p1 p2 : pd (p1 + p2) T -> exists B S, law T 1 p1 p2 B S.
Proof. intros HT. apply law_exists, pd_invertible. eapply pd_lead; eauto. Qed.

(** The largest squared canonical correlation exists, is unique and lies in [0, 1). *)
Theorem C90_correlation T p1 p2 : (1 <= p1)%nat -> (1 <= p2)%nat -> pd (p1 + p2) T ->
  exists r, top_corr2 T p1 p2 r /\ 0 <= r < 1 /\ forall r', top_corr2 T p1 p2 r' -> r' = r.
Proof.
  intros H1 H2 HT. destruct (law_of T p1 p2 HT) as (B & S & HL). destruct (canon_exists T p1 p2 B S (proj1 HT) HL HT H1 H2) as (r & HR). exists r. split; [exact HR|].
  split; [now apply (canon_range T p1 p2 B S (proj1 HT) HL HT)|].
  assert (Q : forall a b, top_corr2 T p1 p2 a -> top_corr2 T p1 p2 b -> a <= b).
  { intros a b [_ (u & v & Hu & Hv & E)] [Hb _]. specialize (Hb u v). rewrite E in Hb.
    assert (0 < qf p1 T u * qf p2 (second_block p1 T) v) by (apply Rmult_lt_0_compat; [apply (pd_lead _ _ _ HT); auto|apply (second_pd _ _ _ HT); auto]).
    eapply Rmult_le_reg_r; eauto. }
  intros r' HR'. apply Rle_antisym; auto.
Qed.

(** Two blocks: the closed form is positive definite exactly when (1 - gamma) rho^2 < gamma^2 (1 - rho^2). *)
Theorem C90_definite (L : LinAlg NumX) T p1 p2 g r : lawful L -> (1 <= p1)%nat -> (1 <= p2)%nat -> pd (p1 + p2) T -> g <> 0 -> top_corr2 T p1 p2 r ->
  let p := (p1 + p2)%nat in
  exists C, closed_form_general L (fm p p T) [p1; p2] (Fin g) = Ok (fm p p C) /\ (pd p C <-> (1 - g) * r < g * g * (1 - r)).
Proof.
  intros HL H1 H2 HT Hg HR p. assert (HS : sizes_ok [p1; p2] p) by (split; [repeat constructor; auto|cbn; unfold p; lia]).
  destruct (C88_recovers_every_law L T g [p1; p2] p HL Hg HS HT) as (C & E1 & E2 & E3). exists C. split; [exact E1|].
  pose proof (first_block T C g p1 [p2] E3) as FB. cbn [offsets] in E3. inversion E3 as [|? ? _ E4]; subst. inversion E4 as [|? ? (B & S & K1 & K2) _]; subst. cbn [fst snd Nat.add] in *.
  exact (closed_pd_corr T p1 p2 B S (proj1 HT) K1 HT C g Hg E2 FB K2 r HR).
Qed.
(** In terms of [_solve_spd_threshold]: definite exactly above the threshold of the true correlation. *)
Theorem C90_threshold (L : LinAlg NumX) T p1 p2 r : lawful L -> (1 <= p1)%nat -> (1 <= p2)%nat -> pd (p1 + p2) T -> top_corr2 T p1 p2 r ->
  let p := (p1 + p2)%nat in
  exists t, solve_spd_threshold (N := NumX) (Fin r) = Fin t /\ 0 <= t < 1 /\
    forall g, 0 < g -> exists C, closed_form_general L (fm p p T) [p1; p2] (Fin g) = Ok (fm p p C) /\ (pd p C <-> t < g).
Proof.
  intros HL H1 H2 HT HR p. destruct (law_of T p1 p2 HT) as (B & S & HLw). pose proof (canon_range T p1 p2 B S (proj1 HT) HLw HT r HR) as RR.
  destruct (Req_dec r 0) as [Z|Z].
  - exists 0. split; [rewrite Z; apply C87_threshold_ends|]. split; [lra|]. intros g Hg. destruct (C90_definite L T p1 p2 g r HL H1 H2 HT ltac:(lra) HR) as (C & E1 & E2).
    exists C. split; [exact E1|]. etransitivity; [exact E2|]. rewrite Z. split; intros; nra.
  - destruct (root_exists r) as (t & E1 & E2 & E3); [lra|]. exists t. split; [exact E1|]. split; [lra|]. intros g Hg.
    destruct (C90_definite L T p1 p2 g r HL H1 H2 HT ltac:(lra) HR) as (C & F1 & F2). exists C. split; [exact F1|]. etransitivity; [exact F2|]. apply above_root; auto; lra.
Qed.

(** [_is_spd(M, tol)]: every direction has variance above [tol]. *)
Theorem C90_is_spd (L : LinAlg NumX) p C tol : lawful L -> (1 <= p)%nat -> sym p C ->
  exists b, is_spd L (fm p p C) (Fin tol) = Ok b /\ (b = true <-> forall v, not_zero p v -> tol * rdot p v v < qf p C v).
Proof.
  intros HL Hp HC. destruct (law_eigh L HL p C Hp HC) as (lam & U & E & He). destruct (vmin_fin p lam Hp) as (k & Hk & Ev & Hmin).
  unfold is_spd. rewrite half_sym_sym by auto. cbn [bind]. unfold eigvalsh. rewrite E. cbn [bind]. rewrite Ev. cbn [bind]. rewrite ltb_fin.
  eexists. split; [reflexivity|]. pose proof (eig_spec p C U lam He) as ES. destruct (spec_col p U lam k (proj1 He) Hk) as [C1 C2].
  destruct (Rltb_spec tol (lam k)) as [K|K]; split; intros H; try discriminate; auto.
  - intros v Hv. pose proof (spec_bb p U lam (lam k) (proj1 He) Hmin) as [_ BB]. specialize (BB v). rewrite <- (qf_meq p _ _ v ES) in BB. pose proof (rdot_pos p v Hv).
    assert (tol * rdot p v v < lam k * rdot p v v) by (apply Rmult_lt_compat_r; auto). lra.
  - exfalso. apply K. specialize (H (fun i => U i k)). rewrite (qf_meq p _ _ _ ES), C1, C2 in H. assert (not_zero p (fun i => U i k)); [|specialize (H H0); lra].
    destruct (nz_dec p (fun i => U i k)) as [N|N]; [exact N|]. exfalso. unfold rdot in C2. rewrite rsum_zero in C2; [lra|]. intros i Hi. cbv beta in N. rewrite N by auto. ring.
Qed.

(** ** canonical_corr2 *)
Lemma insert_top (a : R) : forall (l : list R) x, (forall y, In y l -> y <= x) ->
  exists l' x', insert (N := NumX) (Fin a) (map (fun y => Fin y : NumX) l ++ [Fin x]) = (map (fun y => Fin y : NumX) l' ++ [Fin x' : NumX])%list /\
    (forall y, In y (l' ++ [x'])%list <-> y = a \/ In y (l ++ [x])%list) /\ forall y, In y l' -> y <= x'.
Proof.
  induction l as [|b l IH]; intros x Hx; cbn [map app insert]; rewrite leb_fin.
  - destruct (Rleb_spec a x).
    + exists [a], x. split; [reflexivity|]. split; [intros y; cbn; intuition|]. intros y [<-|[]]; auto.
    + exists [x], a. split; [reflexivity|]. split; [intros y; cbn; intuition|]. intros y [<-|[]]; lra.
  - destruct (Rleb_spec a b) as [K|K].
    + exists (a :: b :: l), x. split; [reflexivity|]. split; [intros y; cbn; intuition|]. intros y [<-|H]; [|apply Hx; exact H]. apply Rle_trans with b; auto. apply Hx. now left.
    + destruct (IH x) as (l' & x' & E1 & E2 & E3); [intros; apply Hx; now right|]. exists (b :: l'), x'. cbn [map app]. rewrite E1. split; [reflexivity|]. split.
      * intros y. cbn [In app]. rewrite E2. intuition.
      * intros y [<-|H]; auto. assert (B : In a (l' ++ [x'])%list) by (apply E2; now left). apply in_app_or in B. destruct B as [B|[B|[]]]; [apply E3 in B; lra|]. subst. lra.
Qed.
Lemma sort_top : forall l : list R, l <> [] -> exists l' x, np_sort (N := NumX) (map (fun y => Fin y : NumX) l) = (map (fun y => Fin y : NumX) l' ++ [Fin x : NumX])%list /\
  (forall y, In y (l' ++ [x])%list <-> In y l) /\ forall y, In y l' -> y <= x.
Proof.
  induction l as [|a l IH]; intros H; [congruence|]. cbn [map np_sort]. destruct l as [|b l].
  - exists [], a. split; [reflexivity|]. split; [intros y; cbn; tauto|]. intros y [].
  - destruct IH as (l' & x & E1 & E2 & E3); [discriminate|]. rewrite E1. destruct (insert_top a l' x E3) as (l2 & x2 & F1 & F2 & F3). exists l2, x2. split; [exact F1|]. split; [|exact F3].
    intros y. rewrite F2, E2. cbn [In]. intuition.
Qed.
Lemma insert_length (x : NumX) l : length (insert x l) = S (length l).
Proof. induction l as [|y l IH]; [reflexivity|]. cbn [insert]. destruct (nleb x y); [reflexivity|]. cbn [length]. now rewrite IH. Qed.
Lemma sort_length (l : vec NumX) : length (np_sort l) = length l.
Proof. induction l as [|y l IH]; [reflexivity|]. cbn [np_sort]. rewrite insert_length. cbn [length]. now rewrite <- IH. Qed.
Lemma sort_head p (f : nat -> R) : (1 <= p)%nat -> exists k rest, (k < p)%nat /\ rev (np_sort (N := NumX) (fv p f)) = (Fin (f k) : NumX) :: rest /\ forall i, (i < p)%nat -> f i <= f k.
Proof.
  intros Hp. destruct (sort_top (map f (seq 0 p))) as (l & x & E1 & E2 & E3); [destruct p; [lia|discriminate]|].
  assert (FV : fv p f = map (fun y => Fin y : NumX) (map f (seq 0 p))) by (rewrite map_map; reflexivity). rewrite FV.
  assert (K : In x (map f (seq 0 p))) by (apply E2, in_or_app; right; now left). apply in_map_iff in K. destruct K as (k & <- & Hk). apply in_seq in Hk.
  exists k. eexists. split; [lia|]. split.
  - etransitivity; [exact (f_equal (@rev _) E1)|]. rewrite rev_app_distr. cbn [rev app]. reflexivity.
  - intros i Hi. assert (B : In (f i) (l ++ [f k])%list) by (apply E2, in_map, in_seq; lia). apply in_app_or in B. destruct B as [B|[B|[]]]; [auto|]. rewrite B. lra.
Qed.

Definition sol (s m : nat) (T X : rmat) : Prop := meq s m (rmul s T X) (fun i j => T i (s + j)%nat).
Lemma canonical_run (L : LinAlg NumX) T p1 p2 : lawful L -> (1 <= p1)%nat -> (1 <= p2)%nat -> pd (p1 + p2) T ->
  exists X Y c rest, S (length rest) = p1 /\ sol p1 p2 T X /\ meq p2 p1 (rmul p2 (second_block p1 T) Y) (fun i j => T (p1 + i)%nat j) /\
    canonical_corr2 L (fm (p1 + p2) (p1 + p2) T) p1 = Ok (Fin (rclip c 0 1) :: rest) /\
    (forall u, rdot p1 u (rapp p1 (rmul p2 X Y) u) <= c * rdot p1 u u) /\ exists u, rdot p1 u u = 1 /\ rdot p1 u (rapp p1 (rmul p2 X Y) u) = c.
Proof.
  intros HL H1 H2 HT. unfold canonical_corr2. rewrite fm_nrows, !mslice_fin by lia. rewrite !Nat.sub_0_r. replace (p1 + p2 - p1)%nat with p2 by lia. cbn [Nat.add].
  assert (P1 : pd p1 T) by (eapply pd_lead; eauto). pose proof (second_pd T p1 p2 HT) as P2.
  destruct (law_solve L HL p1 p2 T (fun i j => T i (p1 + j)%nat) H1 (proj1 P1)) as [(X & EX & _ & HX)|(_ & HN)]; [|exfalso; apply HN; now apply pd_invertible].
  change (fm p1 p1 (fun i j => T i j)) with (fm p1 p1 T). rewrite EX. cbn [bind]. rewrite transpose_fin by lia.
  destruct (law_solve L HL p2 p1 (second_block p1 T) (rT (fun i j => T i (p1 + j)%nat)) H2 (proj1 P2)) as [(Y & EY & _ & HY)|(_ & HN)]; [|exfalso; apply HN; now apply pd_invertible].
  change (fm p2 p2 (fun i j => T (p1 + i)%nat (p1 + j)%nat)) with (fm p2 p2 (second_block p1 T)). rewrite EY. cbn [bind]. rewrite matmul_fin by lia. cbn [bind].
  rewrite half_sym_fin. cbn [bind]. set (M := rmul p2 X Y) in *. set (H := fun i j => 1 / 2 * (M i j + M j i)).
  assert (SH : sym p1 H) by (intros i j _ _; unfold H; ring). destruct (law_eigh L HL p1 H H1 SH) as (lam & U & E & He). unfold eigvalsh. rewrite E. cbn [bind].
  destruct (sort_head p1 lam H1) as (k & rest & Hk & ES & Hmax).
  exists X, Y, (lam k). exists (map (fun l => np_clip l n0 n1) rest). split.
  { rewrite map_length. change (S (length rest)) with (length ((Fin (lam k) : NumX) :: rest)). rewrite <- ES, rev_length, sort_length. apply fv_length. }
  split; [exact HX|]. split.
  { intros i j Hi Hj. rewrite (HY i j Hi Hj). unfold rT. apply HT; lia. }
  split. { rewrite ES. cbn [map]. rewrite n0_fin, n1_fin, np_clip_fin. reflexivity. }
  assert (QH : forall u, rdot p1 u (rapp p1 M u) = qf p1 H u).
  { intros u. transitivity (1 / 2 * (qf p1 M u + qf p1 (rT M) u)).
    - assert (qf p1 (rT M) u = qf p1 M u). { unfold qf, rT. rewrite rsum_swap. apply rsum_ext. intros i _. apply rsum_ext. intros; ring. }
      rewrite H0, qf_app. field.
    - unfold H, rT. rewrite (qf_scal p1 (1 / 2) (fun i j => M i j + M j i)), (qf_plus p1 M (fun i j => M j i)). reflexivity. }
  pose proof (eig_spec p1 H U lam He) as HE. split.
  - intros u. rewrite QH, (qf_meq p1 _ _ u HE), qf_spec, <- (orth_norm p1 U u (proj1 He)). unfold rdot at 1. rewrite <- rsum_scal. apply rsum_le. intros i Hi.
    specialize (Hmax i Hi). pose proof (Rle_0_sqr (rapp p1 (rT U) u i)) as Q. unfold Rsqr in Q. nra.
  - exists (fun i => U i k). destruct (spec_col p1 U lam k (proj1 He) Hk) as [C1 C2]. split; [exact C2|]. now rewrite QH, (qf_meq p1 _ _ _ HE).
Qed.
Lemma pd_solve_unique n A x y : pd n A -> veq n (rapp n A x) (rapp n A y) -> veq n x y.
Proof.
  intros HP E. destruct (pd_invertible n A HP) as (Ai & HI). intros i Hi.
  assert (Q : forall z, rapp n Ai (rapp n A z) i = z i). { intros z. rewrite <- rapp_mul. rewrite (rapp_ext n _ _ z z (proj2 HI) (fun _ _ => eq_refl) i Hi). now apply rapp_I. }
  rewrite <- (Q x), <- (Q y). now apply rapp_ext; [apply meq_refl| |].
Qed.
(** the true correlation is an eigenvalue of X Y *)
Lemma canonical_eigen T p1 p2 X Y r : pd (p1 + p2) T -> sol p1 p2 T X -> meq p2 p1 (rmul p2 (second_block p1 T) Y) (fun i j => T (p1 + i)%nat j) ->
  top_corr2 T p1 p2 r -> 0 < r -> exists u, not_zero p1 u /\ veq p1 (rapp p1 (rmul p2 X Y) u) (fun i => r * u i).
Proof.
  intros HT HX HY HR Hr. destruct (law_of T p1 p2 HT) as (B & S & HLw). assert (P1 : pd p1 T) by (eapply pd_lead; eauto). pose proof (second_pd T p1 p2 HT) as P2.
  destruct (canon_attained T p1 p2 B S (proj1 HT) HLw HT r HR) as (v & Hv & E). pose proof (canon_vector T p1 p2 B S (proj1 HT) HLw HT r v HR E) as CV.
  set (u := back p2 B v) in *. exists u.
  assert (NZ : not_zero p1 u). { destruct (nz_dec p1 u) as [N|N]; [exact N|]. exfalso. rewrite (qf_zero p1 T u N) in E. pose proof (proj2 P2 v Hv). nra. }
  split; [exact NZ|].
  assert (YU : veq p2 (fun k => rsum p1 (fun j => Y k j * u j)) (fun k => r * v k)).
  { apply (pd_solve_unique p2 _ _ _ P2). intros i Hi. unfold rapp.
    transitivity (rsum p1 (fun j => rmul p2 (second_block p1 T) Y i j * u j)).
    - unfold rmul. rewrite (rsum_ext p2 _ (fun k => rsum p1 (fun j => second_block p1 T i k * Y k j * u j))) by (intros; rewrite <- rsum_scal; apply rsum_ext; intros; ring).
      rewrite rsum_swap. apply rsum_ext. intros j Hj. now rewrite <- rsum_scal_r.
    - rewrite (rsum_ext p1 _ (fun k => T (p1 + i)%nat k * u k)) by (intros j Hj; now rewrite (HY i j Hi Hj)). rewrite (CV i Hi). unfold rapp. rewrite <- rsum_scal. apply rsum_ext. intros; ring. }
  assert (XV : veq p1 (fun i => rsum p2 (fun k => X i k * v k)) u).
  { apply (pd_solve_unique p1 T _ _ P1). intros i Hi. unfold rapp.
    transitivity (rsum p2 (fun k => rmul p1 T X i k * v k)).
    - unfold rmul. rewrite (rsum_ext p1 _ (fun j => rsum p2 (fun k => T i j * X j k * v k))) by (intros; rewrite <- rsum_scal; apply rsum_ext; intros; ring).
      rewrite rsum_swap. apply rsum_ext. intros k Hk. now rewrite <- rsum_scal_r.
    - unfold u, back. rewrite (rsum_ext p2 _ (fun k => rsum p1 (fun j => T i j * (v k * B k j)))).
      + rewrite rsum_swap. apply rsum_ext. intros j Hj. now rewrite rsum_scal.
      + intros k Hk. rewrite (HX i k Hi Hk). rewrite (T_WK T p1 p2 B S (proj1 HT) HLw i k Hi Hk), <- rsum_scal_r. apply rsum_ext. intros; ring. }
  intros i Hi. unfold rapp, rmul. rewrite (rsum_ext p1 _ (fun j => rsum p2 (fun k => X i k * (Y k j * u j)))) by (intros; rewrite <- rsum_scal_r; apply rsum_ext; intros; ring).
  rewrite rsum_swap. rewrite (rsum_ext p2 _ (fun k => r * (X i k * v k))).
  - rewrite rsum_scal. f_equal. exact (XV i Hi).
  - intros k Hk. rewrite rsum_scal. rewrite (YU k Hk). ring.
Qed.
(** The first value of [canonical_corr2] is never below the true one (it takes eigenvalues of the symmetric part of a
    non-symmetric matrix), so the script's prediction of definiteness is safe for 0 < gamma <= 1. *)
Theorem C90_overestimates (L : LinAlg NumX) T p1 p2 r : lawful L -> (1 <= p1)%nat -> (1 <= p2)%nat -> pd (p1 + p2) T -> top_corr2 T p1 p2 r ->
  let p := (p1 + p2)%nat in
  exists c rest, canonical_corr2 L (fm p p T) p1 = Ok (Fin c :: rest) /\ r <= c <= 1 /\
    forall g, 0 < g <= 1 -> (1 - g) * c < g * g * (1 - c) ->
      exists C, closed_form_general L (fm p p T) [p1; p2] (Fin g) = Ok (fm p p C) /\ pd p C.
Proof.
  intros HL H1 H2 HT HR p. destruct (law_of T p1 p2 HT) as (B & S & HLw). pose proof (canon_range T p1 p2 B S (proj1 HT) HLw HT r HR) as RR.
  destruct (canonical_run L T p1 p2 HL H1 H2 HT) as (X & Y & c & rest & HLen & HX & HY & E & Hc & _). exists (rclip c 0 1), rest. split; [exact E|].
  assert (RC : r <= c \/ r = 0).
  { destruct (Req_dec r 0) as [Z|Z]; [now right|]. left. destruct (canonical_eigen T p1 p2 X Y r HT HX HY HR ltac:(lra)) as (u & Hu & Eu). specialize (Hc u).
    rewrite (rdot_ext p1 u u _ (fun i => r * u i) (fun _ _ => eq_refl) Eu) in Hc. pose proof (rdot_pos p1 u Hu) as P.
    assert (D : rdot p1 u (fun i => r * u i) = r * rdot p1 u u) by (unfold rdot; rewrite <- rsum_scal; apply rsum_ext; intros; ring). rewrite D in Hc. eapply Rmult_le_reg_r; eauto. }
  assert (CL : r <= rclip c 0 1 <= 1).
  { unfold rclip. split; [|apply Rmin_r]. apply Rmin_glb; [|lra]. destruct RC as [K|K]; [apply Rle_trans with c; auto; apply Rmax_l|rewrite K; apply Rmax_r]. }
  split; [exact CL|]. intros g Hg K. destruct (C90_definite L T p1 p2 g r HL H1 H2 HT ltac:(lra) HR) as (C & F1 & F2). exists C. split; [exact F1|]. apply F2. set (cc := rclip c 0 1) in *.
  assert ((1 - g) * r <= (1 - g) * cc) by (apply Rmult_le_compat_l; lra). assert (g * g * (1 - cc) <= g * g * (1 - r)) by (apply Rmult_le_compat_l; nra). lra.
Qed.
(** With a single coordinate in the first block the value is exact. *)
Theorem C90_scalar_first_block (L : LinAlg NumX) T p2 r : lawful L -> (1 <= p2)%nat -> pd (1 + p2) T -> top_corr2 T 1 p2 r ->
  canonical_corr2 L (fm (1 + p2) (1 + p2) T) 1 = Ok [Fin r].
Proof.
  intros HL H2 HT HR. destruct (law_of T 1 p2 HT) as (B & S & HLw). pose proof (canon_range T 1 p2 B S (proj1 HT) HLw HT r HR) as RR.
  destruct (canonical_run L T 1 p2 HL (le_n 1) H2 HT) as (X & Y & c & rest & HLen & HX & HY & E & Hc & (u0 & U1 & U2)).
  assert (LEN : rest = []) by (destruct rest; [reflexivity|cbn in HLen; lia]). rewrite E, LEN. do 3 f_equal.
  set (M := rmul p2 X Y) in *. assert (CM : c = M 0%nat 0%nat).
  { unfold rdot, rapp in U1, U2. cbn [rsum] in U1, U2. transitivity (M 0%nat 0%nat * (0 + u0 0%nat * u0 0%nat)); [rewrite <- U2; ring|rewrite U1; ring]. }
  assert (CR : c = r).
  { destruct (Req_dec r 0) as [Z|Z].
    - rewrite CM, Z. unfold M, rmul. apply rsum_zero. intros k Hk. assert (X0 : X 0%nat k = 0); [|rewrite X0; ring].
      assert (T0 : T 0%nat (1 + k)%nat = 0).
      { destruct HR as [HB _]. specialize (HB (fun _ => 1) (fun j => if Nat.eqb j k then 1 else 0)). rewrite Z, Rmult_0_l in HB.
        assert (EC : cross_cov 1 p2 T (fun _ => 1) (fun j => if Nat.eqb j k then 1 else 0) = T 0%nat (1 + k)%nat).
        { unfold cross_cov. cbn [rsum]. rewrite Rplus_0_l. rewrite <- (rsum_delta p2 k (fun j => T 0%nat (1 + j)%nat) Hk). apply rsum_ext. intros j Hj. destruct (Nat.eqb j k); ring. }
        rewrite EC in HB. apply Rsqr_0_uniq. unfold Rsqr. assert (0 <= T 0%nat (1 + k)%nat * T 0%nat (1 + k)%nat) by apply Rle_0_sqr. lra. }
      pose proof (HX 0%nat k ltac:(lia) Hk) as HX0. unfold rmul in HX0. cbn [rsum] in HX0. rewrite Rplus_0_l in HX0. cbv beta in HX0. rewrite T0 in HX0.
      assert (P : 0 < T 0%nat 0%nat). { rewrite <- (qf_unit 1 T 0) by lia. apply (pd_lead 1 p2 T HT). exists 0%nat. split; [lia|]. cbn. lra. }
      apply Rmult_integral in HX0. destruct HX0; [lra|auto].
    - destruct (canonical_eigen T 1 p2 X Y r HT HX HY HR ltac:(lra)) as (u & (i & Hi & Hu) & Eu). replace i with 0%nat in * by lia. specialize (Eu 0%nat ltac:(lia)).
      unfold rapp in Eu. cbn [rsum] in Eu. rewrite Rplus_0_l in Eu. rewrite CM. apply (Rmult_eq_reg_r (u 0%nat)); auto. }
  rewrite CR. unfold rclip. rewrite Rmax_left, Rmin_left by lra. reflexivity.
Qed.

(** ** It is not exact: two coordinates with variances 1 and 4 and covariances 1 and 4 with a third of variance [e] *)
Definition skewed (e : R) : rmat := fun i j =>
  match i, j with
  | O, O => 1 | 1%nat, 1%nat => 4 | 2%nat, 2%nat => e
  | O, 2%nat => 1 | 2%nat, O => 1
  | 1%nat, 2%nat => 4 | 2%nat, 1%nat => 4
  | _, _ => 0
  end.
Lemma skewed_sym e : sym 3 (skewed e).
Proof. intros i j Hi Hj. destruct i as [|[|[|i]]], j as [|[|[|j]]]; try reflexivity; lia. Qed.
Lemma skewed_law e : law (skewed e) 1 2 1 (fun _ _ => 1) (fun _ _ => e - 5).
Proof.
  split.
  - intros i j Hi Hj. replace i with 0%nat by lia. destruct j as [|[|j]]; [| |lia]; unfold rmul; cbn; ring.
  - intros i l Hi Hl. replace i with 0%nat by lia. replace l with 0%nat by lia. cbn. ring.
Qed.
Lemma skewed_pd e : 5 < e -> pd (2 + 1) (skewed e).
Proof.
  intros He. refine (pd_from_schur (skewed e) 2 1 _ _ (skewed_sym e) (skewed_law e) _ _).
  - split; [intros i j Hi Hj; apply skewed_sym; lia|]. intros v (i & Hi & Hv). unfold qf. cbn [rsum]. unfold skewed.
    assert (0 <= v 0%nat * v 0%nat) by apply Rle_0_sqr. assert (0 <= v 1%nat * v 1%nat) by apply Rle_0_sqr.
    assert (0 < v i * v i) by (apply Rdichotomy in Hv; nra). destruct i as [|[|i]]; [lra|lra|lia].
  - split; [intros i j _ _; reflexivity|]. intros v (i & Hi & Hv). replace i with 0%nat in Hv by lia. unfold qf. cbn [rsum].
    assert (0 < v 0%nat * v 0%nat) by (apply Rdichotomy in Hv; nra). nra.
Qed.
Lemma skewed_corr e : 5 < e -> top_corr2 (skewed e) 2 1 (5 / e).
Proof.
  intros He. assert (P : 0 <= 5 / e) by (apply Rle_mult_inv_pos; lra).
  assert (E : forall v, qf 2 (skewed e) (back 1 (fun _ _ => 1) v) = 5 / e * qf 1 (second_block 2 (skewed e)) v).
  { intros v. unfold qf, back, second_block. cbn [rsum Nat.add]. unfold skewed. field. lra. }
  apply (canon_intro (skewed e) 2 1 _ _ (skewed_sym e) (skewed_law e) (skewed_pd e He)); [lia|exact P| |].
  - intros v. rewrite E. lra.
  - exists (fun _ => 1). split; [exists 0%nat; split; [lia|lra]|apply E].
Qed.
Lemma skewed_value L e : lawful L -> 5 < e -> exists c rest, canonical_corr2 L (fm 3 3 (skewed e)) 2 = Ok (Fin (rclip c 0 1) :: rest) /\ 27 / (5 * e) <= c.
Proof.
  intros HL He. destruct (canonical_run L (skewed e) 2 1 HL ltac:(lia) ltac:(lia) (skewed_pd e He)) as (X & Y & c & rest & _ & HX & HY & E & Hc & _). exists c, rest. split; [exact E|].
  pose proof (HX 0%nat 0%nat ltac:(lia) ltac:(lia)) as X0. pose proof (HX 1%nat 0%nat ltac:(lia) ltac:(lia)) as X1.
  pose proof (HY 0%nat 0%nat ltac:(lia) ltac:(lia)) as Y0. pose proof (HY 0%nat 1%nat ltac:(lia) ltac:(lia)) as Y1.
  unfold rmul, second_block in X0, X1, Y0, Y1. cbn [rsum Nat.add] in X0, X1, Y0, Y1. unfold skewed in X0, X1, Y0, Y1.
  specialize (Hc (fun i => if Nat.eqb i 0 then 1 else 2)). unfold rdot, rapp, rmul in Hc. cbn [rsum Nat.eqb] in Hc.
  assert (A0 : X 0%nat 0%nat = 1) by lra. assert (A1 : X 1%nat 0%nat = 1) by lra. rewrite A0, A1 in Hc.
  assert (B0 : Y 0%nat 0%nat = / e) by (apply (Rmult_eq_reg_l e); [|lra]; rewrite Rinv_r by lra; lra).
  assert (B1 : Y 0%nat 1%nat = 4 * / e) by (apply (Rmult_eq_reg_l e); [|lra]; replace (e * (4 * / e)) with 4 by (field; lra); lra). rewrite B0, B1 in Hc.
  apply Rmult_le_reg_r with 5; [lra|]. replace (27 / (5 * e) * 5) with (27 * / e) by (field; lra). lra.
Qed.
(** The script's prediction can be wrong: at gamma = 0.63 the closed form is positive definite and the prediction says it is not. *)
Theorem C90_prediction_wrong (L : LinAlg NumX) : lawful L ->
  pd 3 (skewed 10) /\ top_corr2 (skewed 10) 2 1 (1 / 2) /\
  exists c rest C, canonical_corr2 L (fm 3 3 (skewed 10)) 2 = Ok (Fin c :: rest) /\ 54 / 100 <= c <= 1 /\
    ~ (1 - 63 / 100) * c < 63 / 100 * (63 / 100) * (1 - c) /\
    closed_form_general L (fm 3 3 (skewed 10)) [2; 1]%nat (Fin (63 / 100)) = Ok (fm 3 3 C) /\ pd 3 C.
Proof.
  intros HL. split; [apply (skewed_pd 10); lra|]. assert (HR : top_corr2 (skewed 10) 2 1 (1 / 2)) by (replace (1 / 2) with (5 / 10) by field; apply skewed_corr; lra). split; [exact HR|].
  destruct (skewed_value L 10 HL ltac:(lra)) as (c & rest & E & Hc).
  destruct (C90_definite L (skewed 10) 2 1 (63 / 100) (1 / 2) HL ltac:(lia) ltac:(lia) (skewed_pd 10 ltac:(lra)) ltac:(lra) HR) as (C & F1 & F2).
  assert (B : 54 / 100 <= rclip c 0 1 <= 1).
  { unfold rclip. split; [|apply Rmin_r]. apply Rmin_glb; [|lra]. apply Rle_trans with c; [lra|apply Rmax_l]. }
  exists (rclip c 0 1), rest, C. split; [exact E|]. split; [exact B|]. split; [intros K; lra|]. split; [exact F1|]. apply F2. lra.
Qed.
(** Or absent: the value is clipped to 1, the threshold is NaN, and the closed form is positive definite at gamma = 0.97. *)
Theorem C90_no_threshold (L : LinAlg NumX) : lawful L ->
  let T := skewed (52 / 10) in pd 3 T /\ top_corr2 T 2 1 (25 / 26) /\
  exists rest C, canonical_corr2 L (fm 3 3 T) 2 = Ok (Fin 1 :: rest) /\ solve_spd_threshold (N := NumX) (Fin 1) = NaN /\
    closed_form_general L (fm 3 3 T) [2; 1]%nat (Fin (97 / 100)) = Ok (fm 3 3 C) /\ pd 3 C.
Proof.
  intros HL T. assert (HP : pd (2 + 1) T) by (apply skewed_pd; lra). split; [exact HP|].
  assert (HR : top_corr2 T 2 1 (25 / 26)) by (replace (25 / 26) with (5 / (52 / 10)) by field; apply skewed_corr; lra). split; [exact HR|].
  destruct (skewed_value L (52 / 10) HL ltac:(lra)) as (c & rest & E & Hc).
  destruct (C90_definite L T 2 1 (97 / 100) (25 / 26) HL ltac:(lia) ltac:(lia) HP ltac:(lra) HR) as (C & F1 & F2).
  exists rest, C. split.
  - fold T in E. rewrite E. do 3 f_equal. unfold rclip. rewrite Rmin_right; [reflexivity|]. apply Rle_trans with c; [lra|apply Rmax_l].
  - split; [apply C87_threshold_ends|]. split; [exact F1|]. apply F2. lra.
Qed.
Example C88_C90_witness : exists L log, lawful L /\ is_log log /\ sizes_ok [1; 2]%nat 3 /\ pd 3 (skewed 10) /\
  expected_schur_loglik L log (fm 3 3 (skewed 10)) (fm 3 3 (skewed 10)) [1; 2]%nat (Fin 1) = Ok (Fin (best_value 3 (skewed 10))).
Proof.
  destruct lawful_satisfiable as [L HL]. destruct is_log_exists as [log Hlog]. exists L, log. assert (HS : sizes_ok [1; 2]%nat 3) by (split; [repeat constructor|reflexivity]).
  assert (HP : pd 3 (skewed 10)) by (apply (skewed_pd 10); lra). split; [exact HL|]. split; [exact Hlog|]. split; [exact HS|]. split; [exact HP|]. now apply C88_full_trust.
Qed.

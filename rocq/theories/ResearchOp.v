(** * schur_operator on finite reals (proof infrastructure) *)
From Coq Require Import Reals ZArith List Lia Lra Arith Bool.
From Verif Require Import Num Numpy LinalgModel ListLemmas RMat LinSpec Fin RealSpec Spectral MatAlg Det Contracts LinalgReal GaussSpec GaussReal ScoreReal ShrinkReal AssessSpec AssessBlock
  ResearchModel ResearchSpec ResearchReal ResearchTwo Props_Research ResearchRun.
Import ListNotations.
Local Open Scope R_scope.

Lemma set_sub_rect q p F a m b k V : (1 <= q)%nat -> set_sub (N := NumX) (fm q p F) (seq a m) (seq b k) (fm m k V) = fm q p (patch F a m b k V).
Proof.
  intros Hq. unfold set_sub. rewrite fm_nrows, fm_ncols by auto. change (fm q p (patch F a m b k V)) with (tab2 q p (fun i j => Fin (patch F a m b k V i j) : NumX)). apply tab2_ext. intros i j Hi Hj.
  rewrite !position_seq. unfold patch.
  destruct (Nat.leb_spec a i), (Nat.ltb_spec i (a + m)), (Nat.leb_spec b j), (Nat.ltb_spec j (b + k)); cbn [andb]; rewrite ?fm_get by lia; reflexivity.
Qed.
Lemma law_sym_any C g s m B S : invertible s C -> sym (s + m) C -> law C g s m B S -> sym m S.
Proof.
  intros HI HC HL. destruct (Req_dec g 0) as [Z|Z]; [|now apply (law_sym C g s m B S)]. subst g.
  assert (B0 : meq m s B (fun _ _ => 0)).
  { apply (regression_unique C 0 s m B (fun _ _ => 0) HI (proj1 HL)). intros i j Hi Hj. unfold rmul. rewrite rsum_zero; [ring|]. intros; ring. }
  intros i l Hi Hl. rewrite !(proj2 HL) by auto. rewrite (HC (s + i)%nat (s + l)%nat) by lia. rewrite !(rsum_zero s); [reflexivity| |]; intros k Hk; rewrite B0 by auto; ring.
Qed.

(** the damped residual map: x -> x_K - G x_W *)
Definition tmap (s : nat) (G : rmat) : rmat := fun a c => if Nat.ltb c s then - G a c else if Nat.eqb c (s + a) then 1 else 0.
Lemma tmap_lo s G a c : (c < s)%nat -> tmap s G a c = - G a c.
Proof. intros H. unfold tmap. now rewrite (proj2 (Nat.ltb_lt c s) H). Qed.
Lemma tmap_hi s G a c : tmap s G a (s + c)%nat = rI c a.
Proof. unfold tmap. destruct (Nat.ltb_spec (s + c) s); [lia|]. unfold rI. destruct (Nat.eqb_spec (s + c) (s + a)), (Nat.eqb_spec c a); lia || reflexivity. Qed.
Lemma tmap_far s m G a c : (a < m)%nat -> (s + m <= c)%nat -> tmap s G a c = 0.
Proof. intros Ha Hc. unfold tmap. destruct (Nat.ltb_spec c s); [lia|]. destruct (Nat.eqb_spec c (s + a)); [lia|reflexivity]. Qed.
(** sums against a row of the residual map *)
Lemma tmap_sum p s m G a f : (a < m)%nat -> (s + m <= p)%nat -> rsum p (fun c => tmap s G a c * f c) = f (s + a)%nat - rsum s (fun c => G a c * f c).
Proof.
  intros Ha Hp. replace p with (s + (m + (p - (s + m))))%nat by lia. rewrite rsum_split, rsum_split.
  rewrite (rsum_zero (p - (s + m))). 2:{ intros i Hi. rewrite (tmap_far s m) by lia. ring. }
  rewrite (rsum_ext s _ (fun c => -1 * (G a c * f c))) by (intros c Hc; rewrite tmap_lo by auto; ring). rewrite rsum_scal.
  rewrite (rsum_ext m _ (fun c => if Nat.eqb c a then f (s + c)%nat else 0)) by (intros c Hc; rewrite tmap_hi; unfold rI; destruct (Nat.eqb c a); ring).
  rewrite (rsum_delta m a (fun c => f (s + c)%nat) Ha). ring.
Qed.

(** ** one increment T_k^T Sg^-1 T_k *)
Section Increment.
  Context (A : rmat) (p s m : nat) (g : R) (G Sg X Sgi : rmat).
  Context (Hp : (s + m <= p)%nat) (HLw : law A g s m G Sg) (HS : sym m Sg) (HI : inverse m Sg Sgi) (HX : meq m p (rmul m Sg X) (tmap s G)).
  Definition incr : rmat := fun i j => rsum m (fun a => tmap s G a i * X a j).
  Lemma X_eq a j : (a < m)%nat -> (j < p)%nat -> X a j = rsum m (fun b => Sgi a b * tmap s G b j).
  Proof.
    intros Ha Hj. rewrite <- (rmul_I_l m X a j Ha). transitivity (rmul m (rmul m Sgi Sg) X a j).
    - unfold rmul at 1 2. apply rsum_ext. intros k Hk. now rewrite (proj2 HI a k Ha Hk).
    - rewrite rmul_assoc. unfold rmul at 1. apply rsum_ext. intros k Hk. now rewrite (HX k j Hk Hj).
  Qed.
  Lemma Sgi_sym : sym m Sgi.
  Proof.
    assert (J : inverse m Sg (rT Sgi)).
    { destruct HI as [H1 H2]. split; intros i j Hi Hj.
      - rewrite <- (rI_sym j i), <- (H2 j i Hj Hi). unfold rmul, rT. apply rsum_ext. intros k Hk. rewrite (HS i k) by auto. ring.
      - rewrite <- (rI_sym j i), <- (H1 j i Hj Hi). unfold rmul, rT. apply rsum_ext. intros k Hk. rewrite (HS j k) by auto. ring. }
    intros i j Hi Hj. exact (inverse_unique m Sg Sgi (rT Sgi) HI J i j Hi Hj).
  Qed.
  Lemma incr_eq : meq p p incr (fun i j => rsum m (fun a => rsum m (fun b => tmap s G a i * Sgi a b * tmap s G b j))).
  Proof. intros i j Hi Hj. unfold incr. apply rsum_ext. intros a Ha. rewrite X_eq by auto. rewrite <- rsum_scal. apply rsum_ext. intros; ring. Qed.
  Lemma incr_sym : sym p incr.
  Proof.
    intros i j Hi Hj. rewrite !incr_eq by auto. rewrite rsum_swap. apply rsum_ext. intros b Hb. apply rsum_ext. intros a Ha. rewrite (Sgi_sym b a) by auto. ring.
  Qed.
  Lemma incr_qf x : qf p incr x = qf m Sgi (fun a => rsum p (fun i => x i * tmap s G a i)).
  Proof. rewrite (qf_meq p _ _ x incr_eq). apply (qf_congr p m (fun i a => tmap s G a i) Sgi x). Qed.
  Lemma incr_psd : pd m Sg -> psd p incr.
  Proof. intros HP. split; [exact incr_sym|]. intros x. rewrite incr_qf. apply (pd_psd m Sgi (inverse_pd m Sg Sgi HP HI)). Qed.
  Lemma incr_trace T X' : sym p T -> meq m m (rmul m Sg X') (resid T s G) -> rtrace p (rmul p incr T) = rtrace m X'.
  Proof.
    intros HT HX'.
    assert (RS : forall a b, (a < m)%nat -> (b < m)%nat -> rsum p (fun j => tmap s G b j * rsum p (fun i => tmap s G a i * T j i)) = resid T s G b a).
    { intros a b Ha Hb. rewrite (tmap_sum p s m G b) by auto. rewrite (tmap_sum p s m G a) by auto.
      rewrite (rsum_ext s (fun c => G b c * rsum p (fun i => tmap s G a i * T c i)) (fun c => G b c * T (s + a)%nat c - rsum s (fun d => G b c * T c d * G a d))).
      2:{ intros c Hc. rewrite (tmap_sum p s m G a) by auto. rewrite (HT c (s + a)%nat) by lia. rewrite Rmult_minus_distr_l. f_equal. rewrite <- rsum_scal. apply rsum_ext. intros; ring. }
      rewrite rsum_minus. unfold resid. rewrite (rsum_ext s (fun c => G a c * T (s + b)%nat c) (fun k => T (s + b)%nat k * G a k)) by (intros; ring). ring. }
    transitivity (rtrace m (rmul m Sgi (resid T s G))).
    - unfold rtrace, rmul.
      transitivity (rsum p (fun i => rsum p (fun j => rsum m (fun a => rsum m (fun b => Sgi a b * (tmap s G b j * (tmap s G a i * T j i))))))).
      { apply rsum_ext. intros i Hi. apply rsum_ext. intros j Hj. rewrite incr_eq by auto. rewrite <- rsum_scal_r. apply rsum_ext. intros a Ha. rewrite <- rsum_scal_r. apply rsum_ext. intros; ring. }
      rewrite rsum_swap.
      rewrite (rsum_ext p _ (fun j => rsum m (fun a => rsum p (fun i => rsum m (fun b => Sgi a b * (tmap s G b j * (tmap s G a i * T j i))))))) by (intros; apply rsum_swap).
      rewrite rsum_swap. apply rsum_ext. intros a Ha.
      rewrite (rsum_ext p _ (fun j => rsum m (fun b => rsum p (fun i => Sgi a b * (tmap s G b j * (tmap s G a i * T j i)))))) by (intros; apply rsum_swap).
      rewrite rsum_swap. apply rsum_ext. intros b Hb. rewrite <- (RS a b Ha Hb), <- rsum_scal. apply rsum_ext. intros j Hj. rewrite <- !rsum_scal. apply rsum_ext. intros; ring.
    - apply rtrace_ext. intros i j Hi Hj. rewrite <- (rmul_I_l m X' i j Hi). symmetry. transitivity (rmul m (rmul m Sgi Sg) X' i j).
      + unfold rmul at 1 2. apply rsum_ext. intros k Hk. now rewrite (proj2 HI i k Hi Hk).
      + rewrite rmul_assoc. unfold rmul at 1 3. apply rsum_ext. intros k Hk. now rewrite (HX' k j Hk Hj).
  Qed.
End Increment.
(** the step of the block inverse *)
Lemma inverse_step A s m G Sg X Sgi (W : rmat) : sym (s + m) A -> law A 1 s m G Sg -> sym m Sg -> inverse m Sg Sgi -> meq m (s + m) (rmul m Sg X) (tmap s G) ->
  (forall i j, (i < s + m)%nat -> (j < s + m)%nat -> (s <= i \/ s <= j)%nat -> W i j = 0) -> meq s s (rmul s W A) rI ->
  meq (s + m) (s + m) (rmul (s + m) (fun i j => W i j + incr s m G X i j) A) rI.
Proof.
  intros HA HLw HS HI HX HW0 HWI i j Hi Hj.
  assert (XA : forall a, (a < m)%nat -> rsum (s + m) (fun c => X a c * A c j) = if Nat.ltb j s then 0 else rI a (j - s)%nat).
  { intros a Ha. rewrite (rsum_ext (s + m) _ (fun c => rsum m (fun b => Sgi a b * (tmap s G b c * A c j)))).
    2:{ intros c Hc. rewrite (X_eq (s + m) s m G Sg X Sgi HI HX a c Ha Hc), <- rsum_scal_r. apply rsum_ext. intros; ring. }
    rewrite rsum_swap. destruct (Nat.ltb_spec j s) as [J|J].
    - apply rsum_zero. intros b Hb. rewrite rsum_scal, (tmap_sum (s + m) s m G b) by (auto; lia). pose proof (proj1 HLw b j Hb J) as K. unfold rmul in K. rewrite K. ring.
    - transitivity (rmul m Sgi Sg a (j - s)%nat); [|apply HI; lia]. unfold rmul. apply rsum_ext. intros b Hb. rewrite rsum_scal, (tmap_sum (s + m) s m G b) by (auto; lia). f_equal.
      rewrite (proj2 HLw b (j - s)%nat Hb ltac:(lia)). now replace (s + (j - s))%nat with j by lia. }
  assert (DA : rmul (s + m) (incr s m G X) A i j = if Nat.ltb j s then 0 else tmap s G (j - s)%nat i).
  { unfold rmul, incr. rewrite (rsum_ext (s + m) _ (fun c => rsum m (fun a => tmap s G a i * (X a c * A c j)))) by (intros; rewrite <- rsum_scal_r; apply rsum_ext; intros; ring).
    rewrite rsum_swap. rewrite (rsum_ext m _ (fun a => tmap s G a i * (if Nat.ltb j s then 0 else rI a (j - s)%nat))) by (intros a Ha; rewrite rsum_scal, XA by auto; reflexivity).
    destruct (Nat.ltb_spec j s); [apply rsum_zero; intros; ring|]. rewrite (rsum_ext m _ (fun a => if Nat.eqb a (j - s)%nat then tmap s G a i else 0)) by (intros a Ha; unfold rI; destruct (Nat.eqb a (j - s)%nat); ring).
    apply (rsum_delta m (j - s) (fun a => tmap s G a i)). lia. }
  assert (WA : rmul (s + m) W A i j = if Nat.ltb i s then rsum s (fun c => W i c * A c j) else 0).
  { unfold rmul. rewrite rsum_split, (rsum_zero m). 2:{ intros c Hc. rewrite HW0 by lia. ring. } rewrite Rplus_0_r.
    destruct (Nat.ltb_spec i s); [reflexivity|]. apply rsum_zero. intros c Hc. rewrite HW0 by lia. ring. }
  transitivity (rmul (s + m) W A i j + rmul (s + m) (incr s m G X) A i j). { unfold rmul. rewrite <- rsum_plus. apply rsum_ext. intros; ring. }
  rewrite WA, DA. destruct (Nat.ltb_spec i s) as [I|I]; destruct (Nat.ltb_spec j s) as [J|J].
  - rewrite Rplus_0_r. apply (HWI i j I J).
  - rewrite tmap_lo by auto.
    replace (rsum s (fun c => W i c * A c j)) with (G (j - s)%nat i).
    { unfold rI. destruct (Nat.eqb_spec i j); [lia|ring]. }
    transitivity (rsum s (fun d => rI i d * G (j - s)%nat d)).
    { rewrite (rsum_ext s _ (fun d => if Nat.eqb d i then G (j - s)%nat d else 0)); [now rewrite rsum_delta|]. intros d Hd. unfold rI. rewrite (Nat.eqb_sym i d). destruct (Nat.eqb d i); ring. }
    rewrite (rsum_ext s _ (fun d => rsum s (fun c => W i c * (A c d * G (j - s)%nat d)))).
    2:{ intros d Hd. rewrite <- (HWI i d I Hd). unfold rmul. rewrite <- rsum_scal_r. apply rsum_ext. intros; ring. }
    rewrite rsum_swap. apply rsum_ext. intros c Hc. rewrite rsum_scal. f_equal. symmetry. transitivity (A c (s + (j - s))%nat); [f_equal; lia|]. apply (T_WK A s m G Sg HA HLw c (j - s)%nat); lia.
  - unfold rI. destruct (Nat.eqb_spec i j); [lia|ring].
  - replace i with (s + (i - s))%nat at 1 by lia. rewrite tmap_hi. unfold rI. destruct (Nat.eqb_spec (i - s) (j - s)), (Nat.eqb_spec i j); lia || ring.
Qed.

Section Op.
  Context (L : LinAlg NumX) (HL : lawful L).

  Lemma operator_terms_fin p A g s m : (1 <= m)%nat -> (s + m <= p)%nat -> sym p A -> invertible s A ->
    exists G Sg, law A g s m G Sg /\ sym m Sg /\
      (~ invertible m Sg -> operator_terms L (fm p p A) (Fin g) p (seq 0 s) (seq s m) = Err LinAlgError) /\
      (invertible m Sg -> exists X, meq m p (rmul m Sg X) (tmap s G) /\
        operator_terms L (fm p p A) (Fin g) p (seq 0 s) (seq s m) = Ok (fm p p (fun i j => rsum m (fun a => tmap s G a i * X a j)), Fin (ln (Rabs (rdet m Sg))))).
  Proof.
    intros Hm Hp HA HI.
    assert (FINISH : forall G Sg Tm, law A g s m G Sg -> meq m p Tm (tmap s G) ->
      exists G Sg0, law A g s m G Sg0 /\ sym m Sg0 /\
      let r := (Sg1 <- half_sym (fm m m Sg) ;; X <- la_solve L Sg1 (fm m p Tm) ;; dW <- matmul (transpose (fm m p Tm)) X ;; '(_, ld) <- la_slogdet L Sg1 ;; Ok (dW, ld)) in
      (~ invertible m Sg0 -> r = Err LinAlgError) /\
      (invertible m Sg0 -> exists X, meq m p (rmul m Sg0 X) (tmap s G) /\ r = Ok (fm p p (fun i j => rsum m (fun a => tmap s G a i * X a j)), Fin (ln (Rabs (rdet m Sg0)))))).
    { intros G Sg Tm HLw HTm. assert (SS : sym m Sg) by (apply (law_sym_any A g s m G Sg HI); auto; intros i j Hi Hj; apply HA; lia).
      exists G, Sg. split; [exact HLw|]. split; [exact SS|]. cbn zeta. rewrite half_sym_sym by auto. cbn [bind].
      destruct (law_solve L HL m p Sg Tm Hm SS) as [(X & EX & HI2 & HX)|(EX & HN)]; rewrite EX; cbn [bind]; [|split; [reflexivity|intros; contradiction]].
      split; [intros HN; contradiction|]. intros _. exists X. split; [eapply meq_trans; [exact HX|exact HTm]|]. rewrite transpose_fin by lia. rewrite matmul_fin by lia. cbn [bind].
      assert (DN : rdet m Sg <> 0). { destruct HI2 as (Sgi & H2). pose proof (rdet_inverse H2) as D. intros Z. rewrite Z in D. lra. }
      destruct (law_slogdet L HL m Sg Hm) as [(Z & _)|(_ & E)]; [contradiction|]. rewrite E. cbn [bind]. do 2 f_equal. apply fm_ext. intros i j Hi Hj. unfold rmul, rT. apply rsum_ext.
      intros a Ha. now rewrite (HTm a i Ha Hi). }
    assert (HZ : @mzeros NumX m p = fm m p (fun _ _ => 0)) by apply mzeros_fin.
    assert (HE : @meye NumX m = fm m m rI) by (unfold meye, fm; apply tab2_ext; intros i j _ _; unfold rI; destruct (Nat.eqb i j); [apply n1_fin|apply n0_fin]).
    unfold operator_terms. rewrite seq_length. rewrite HZ, HE, set_sub_rect by lia. set (T0 := patch (fun _ _ => 0) 0 m s m rI).
    assert (ET0 : forall a c, (a < m)%nat -> T0 a c = if Nat.ltb c s then 0 else if Nat.eqb c (s + a) then 1 else 0).
    { intros a c Ha. unfold T0, patch, rI. rewrite (proj2 (Nat.leb_le 0 a)), (proj2 (Nat.ltb_lt a (0 + m))) by lia. cbn [andb].
      destruct (Nat.leb_spec s c), (Nat.ltb_spec c (s + m)), (Nat.ltb_spec c s), (Nat.eqb_spec c (s + a)); cbn [andb]; try lia; try reflexivity.
      - destruct (Nat.eqb_spec (a - 0) (c - s)); [reflexivity|lia].
      - destruct (Nat.eqb_spec (a - 0) (c - s)); [lia|reflexivity]. }
    destruct s as [|s'].
    - cbn [seq]. rewrite sub_fin_seq by lia. cbn [bind]. apply (FINISH (fun _ _ => 0)).
      + split; [intros; lia|]. intros i l _ _. cbn. ring.
      + intros a c Ha Hc. rewrite ET0 by auto. unfold tmap. destruct (Nat.ltb_spec c 0); [lia|reflexivity].
    - set (s := S s') in *. assert (Hs : (1 <= s)%nat) by lia.
      assert (M0 : forall X (a b : X), match seq 0 s with [] => a | _ :: _ => b end = b) by reflexivity. rewrite M0.
      rewrite !sub_fin_seq by lia. cbn [bind]. cbn [Nat.add].
      assert (SA : sym s A) by (intros i j Hi Hj; apply HA; lia). change (fm s s (fun i j => A i j)) with (fm s s A).
      destruct (law_inv L HL s A Hs SA) as [(Ai & E & HIn)|(_ & HN)]; [|contradiction]. rewrite E. cbn [bind]. rewrite matmul_fin by lia. cbn [bind].
      rewrite transpose_fin by lia. destruct (law_solve L HL s m A (rT (fun i j => A (s + i)%nat j)) Hs SA) as [(X & E2 & _ & HX)|(_ & HN)]; [|contradiction].
      rewrite E2. cbn [bind]. rewrite !mscale_fin, matmul_fin by lia. cbn [bind]. rewrite msub_fin. cbn [bind]. rewrite opp_fin. rewrite !mscale_fin, set_sub_rect by lia.
      set (G := rmul s (fun i j => g * A (s + i)%nat j) Ai). apply (FINISH G).
      + assert (GA : forall i j, (i < m)%nat -> (j < s)%nat -> rmul s G A i j = g * A (s + i)%nat j).
        { intros i j Hi Hj. unfold G. rewrite rmul_assoc. etransitivity; [|apply (rmul_I_r s (fun a b => g * A (s + a)%nat b) i j Hj)].
          unfold rmul at 1 3. apply rsum_ext. intros k Hk. now rewrite (proj2 HIn k j Hk Hj). }
        split; [exact GA|]. intros i l Hi Hl. cbv beta. f_equal.
        transitivity (rmul s (rmul s G A) X i l). { unfold rmul at 1 2. apply rsum_ext. intros k Hk. now rewrite <- GA. }
        rewrite rmul_assoc. unfold rmul at 1. apply rsum_ext. intros k Hk. rewrite (HX k l Hk Hl). unfold rT. rewrite (HA (s + l)%nat k) by lia. reflexivity.
      + intros a c Ha Hc. unfold patch. rewrite ET0 by auto. unfold tmap. rewrite (proj2 (Nat.leb_le 0 a)), (proj2 (Nat.ltb_lt a (0 + m))), (proj2 (Nat.leb_le 0 c)) by lia. cbn [andb]. change (0 + s)%nat with s.
        destruct (Nat.ltb_spec c s); [|reflexivity]. rewrite !Nat.sub_0_r. unfold G, rmul. transitivity (- (g * rsum s (fun k => A (s + a)%nat k * Ai k c))); [ring|]. f_equal. rewrite <- rsum_scal. apply rsum_ext. intros; ring.
  Qed.

  Context (log : NumX -> NumX) (Hlog : is_log log).
  Lemma op_expected T A g sizes : forall s t p v (W : rmat) ld, total s sizes = p -> Forall (fun m => (1 <= m)%nat) sizes -> sym p T -> sym p A -> sym p W ->
    expected_loop L log (fm p p T) (fm p p A) (Fin g) (blocks_from s sizes) (Fin t) (seq 0 s) = Ok (Fin v) ->
    exists W' ld', operator_loop L (fm p p A) (Fin g) p (blocks_from s sizes) (fm p p W) (Fin ld) (seq 0 s) = Ok (fm p p W', Fin ld') /\ sym p W' /\
      (forall x, qf p W x <= qf p W' x) /\ v - t = - (1 / 2) * ((ld' - ld) + (rtrace p (rmul p W' T) - rtrace p (rmul p W T))).
  Proof.
    induction sizes as [|m sizes IH]; intros s t p v W ld Ht Hf HT HA HW E.
    { cbn in E. injection E as <-. exists W, ld. split; [reflexivity|]. split; [exact HW|]. split; [intros; lra|ring]. }
    inversion Hf as [|? ? Hm Hf']; subst. pose proof (total_ge sizes (s + m)) as Hge. change (total s (m :: sizes)) with (total (s + m) sizes) in *. set (p := total (s + m) sizes) in *.
    cbn [blocks_from expected_loop] in E. destruct (block_terms_fin L HL p T A g s m Hm Hge HT HA) as [(E1 & _)|(HI & G & Sg & HLw & E1)]; rewrite E1 in E; [discriminate E|].
    cbn [bind] in E. assert (HSg : sym m Sg) by (apply (law_sym_any A g s m G Sg HI); auto; intros i j Hi Hj; apply HA; lia).
    rewrite half_sym_sym in E by auto. cbn [bind] in E.
    destruct (block_value L HL log Hlog m Sg (resid T s G) Hm HSg) as [(_ & ev & lo & F1 & F2 & F3)|(HP & ev & lo & X' & F1 & F2 & F3 & F4 & HX' & F5)];
      rewrite F1 in E; cbn [bind] in E; rewrite F2 in E; cbn [bind] in E; rewrite F3 in E; [rewrite minus_inf_x in E; discriminate E|].
    rewrite F4 in E. cbn [bind] in E. rewrite F5, add_fin, seq_grow in E.
    destruct (operator_terms_fin p A g s m Hm Hge HA HI) as (G2 & Sg2 & HLw2 & HSg2 & _ & OT).
    destruct (law_unique A g s m G2 G Sg2 Sg HI HLw2 HLw) as [K1 K2].
    assert (HP2 : pd m Sg2) by (apply (pd_ext m Sg); auto; now apply meq_sym).
    destruct (OT (pd_invertible m Sg2 HP2)) as (X & HX & EO).
    destruct (pd_invertible m Sg2 HP2) as (Sgi & HInv).
    assert (HR : meq m m (rmul m Sg2 X') (resid T s G2)).
    { intros i l Hi Hl. transitivity (resid T s G i l).
      - rewrite <- (HX' i l Hi Hl). unfold rmul. apply rsum_ext. intros k Hk. now rewrite (K2 i k Hi Hk).
      - unfold resid. f_equal; [f_equal; [f_equal|]|]; apply rsum_ext; intros k Hk; rewrite ?(K1 i k Hi Hk), ?(K1 l k Hl Hk); try reflexivity.
        apply rsum_ext. intros j Hj. now rewrite (K1 l j Hl Hj). }
    pose proof (incr_sym p s m G2 Sg2 X Sgi HSg2 HInv HX) as IS. pose proof (incr_trace p s m G2 Sg2 X Sgi Hge HInv HX T X' HT HR) as ITr.
    pose proof (proj2 (incr_psd p s m G2 Sg2 X Sgi HSg2 HInv HX HP2)) as IPs.
    assert (HW2 : sym p (fun i j => W i j + incr s m G2 X i j)) by (intros i j Hi Hj; rewrite (HW i j), (IS i j) by auto; reflexivity).
    destruct (IH (s + m)%nat _ p v (fun i j => W i j + incr s m G2 X i j) (ld + ln (Rabs (rdet m Sg2))) eq_refl Hf' HT HA HW2 E) as (W' & ld' & Q1 & Q2 & Q3 & Q4).
    exists W', ld'. cbn [blocks_from operator_loop]. rewrite EO. cbn [bind]. rewrite madd_fin. cbn [bind]. rewrite add_fin, seq_grow. split; [exact Q1|]. split; [exact Q2|]. split.
    - intros x. eapply Rle_trans; [|apply Q3]. rewrite (qf_plus p W (incr s m G2 X)). specialize (IPs x). lra.
    - assert (TR : rtrace p (rmul p (fun i j => W i j + incr s m G2 X i j) T) = rtrace p (rmul p W T) + rtrace m X').
      { rewrite <- ITr. unfold rtrace, rmul. rewrite <- rsum_plus. apply rsum_ext. intros i Hi. rewrite <- rsum_plus. apply rsum_ext. intros; ring. }
      rewrite TR in Q4. rewrite (rdet_ext K2), Rabs_right in Q4 by (apply Rle_ge, Rlt_le, pd_det_pos; auto). lra.
  Qed.
  Lemma op_full A sizes : forall s p (W : rmat) ld, total s sizes = p -> Forall (fun m => (1 <= m)%nat) sizes -> pd p A -> sym p W ->
    (forall i j, (i < p)%nat -> (j < p)%nat -> (s <= i \/ s <= j)%nat -> W i j = 0) -> meq s s (rmul s W A) rI -> ld = ln (rdet s A) ->
    exists W', operator_loop L (fm p p A) (Fin 1) p (blocks_from s sizes) (fm p p W) (Fin ld) (seq 0 s) = Ok (fm p p W', Fin (ln (rdet p A))) /\ sym p W' /\ meq p p (rmul p W' A) rI.
  Proof.
    induction sizes as [|m sizes IH]; intros s p W ld Ht Hf HA HW H0 HWI Hld.
    { unfold total in Ht. cbn in Ht. subst s ld. exists W. auto. }
    inversion Hf as [|? ? Hm Hf']; subst. pose proof (total_ge sizes (s + m)) as Hge. change (total s (m :: sizes)) with (total (s + m) sizes) in *. set (p := total (s + m) sizes) in *.
    assert (HAs : pd s A) by (apply (lead_pd A p); auto; lia). assert (HAsm : pd (s + m) A) by (apply (lead_pd A p); auto).
    destruct (operator_terms_fin p A 1 s m Hm Hge (proj1 HA) (pd_invertible s A HAs)) as (G & Sg & HLw & HSg & _ & OT).
    pose proof (schur_pd A s m G Sg (proj1 HAsm) HLw HAsm) as HP. destruct (OT (pd_invertible m Sg HP)) as (X & HX & EO). destruct (pd_invertible m Sg HP) as (Sgi & HInv).
    pose proof (incr_sym p s m G Sg X Sgi HSg HInv HX) as IS. cbn [blocks_from operator_loop]. rewrite EO. cbn [bind]. rewrite madd_fin. cbn [bind]. rewrite add_fin, seq_grow.
    apply (IH (s + m)%nat p (fun i j => W i j + incr s m G X i j)); auto.
    - intros i j Hi Hj. rewrite (HW i j), (IS i j) by auto. reflexivity.
    - assert (FAR : forall i j, (i < p)%nat -> (j < p)%nat -> (s + m <= i)%nat -> incr s m G X i j = 0).
      { intros i j Hi Hj Hfar. unfold incr. apply rsum_zero. intros a Ha. rewrite (tmap_far s m) by auto. ring. }
      intros i j Hi Hj [K|K]; rewrite H0 by lia; [rewrite FAR by auto; ring|]. rewrite (IS i j) by auto. rewrite FAR by auto. ring.
    - apply (inverse_step A s m G Sg X Sgi W (proj1 HAsm) HLw HSg HInv); auto.
      + intros a c Ha Hc. apply HX; lia.
      + intros i j Hi Hj K. apply H0; lia.
    - rewrite Rabs_right by (apply Rle_ge, Rlt_le, pd_det_pos; auto). rewrite (rdet_schur A s m G Sg HLw), ln_mult; [reflexivity|apply pd_det_pos; auto|apply pd_det_pos; auto].
  Qed.
End Op.

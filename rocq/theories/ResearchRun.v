(** * The research functions on finite reals (proof infrastructure) *)
From Coq Require Import Reals ZArith List Lia Lra Arith Bool.
From Verif Require Import Num Numpy LinalgModel ListLemmas RMat LinSpec Fin RealSpec Spectral MatAlg Det Contracts LinalgReal GaussSpec GaussReal ScoreReal AssessSpec AssessBlock
  ResearchModel ResearchSpec ResearchReal Props_Research.
Import ListNotations.
Local Open Scope R_scope.

Lemma sub_fin_seq p q F a m b k : (a + m <= p)%nat -> (b + k <= q)%nat -> (1 <= p)%nat ->
  sub (N := NumX) (fm p q F) (seq a m) (seq b k) = Ok (fm m k (fun i j => F (a + i)%nat (b + j)%nat)).
Proof.
  intros H1 H2 Hp. unfold sub. rewrite fm_nrows, fm_ncols by auto.
  assert (E1 : forallb (fun i => i <? p)%nat (seq a m) = true) by (apply forallb_forall; intros i Hi; apply in_seq in Hi; apply Nat.ltb_lt; lia).
  assert (E2 : forallb (fun i => i <? q)%nat (seq b k) = true) by (apply forallb_forall; intros i Hi; apply in_seq in Hi; apply Nat.ltb_lt; lia).
  rewrite E1, E2. cbn [andb]. f_equal. unfold fm, tab2, tab.
  assert (S0 : forall {A} (f : nat -> A) x n, map f (seq x n) = map (fun i => f (x + i)%nat) (seq 0 n)).
  { intros A f x n. revert x. induction n as [|n IH]; intros x; [reflexivity|]. cbn [seq map]. rewrite Nat.add_0_r. f_equal.
    rewrite (IH (S x)), <- (seq_shift n 0), map_map. apply map_ext. intros i. f_equal. lia. }
  rewrite S0. apply map_ext_in. intros i Hi. apply in_seq in Hi. rewrite S0. apply map_ext_in. intros j Hj. apply in_seq in Hj.
  apply (fm_get p q F); lia.
Qed.
Lemma phalf_fin : @phalf NumX = Fin (1 / 2).
Proof. apply lit5. Qed.
Lemma half_sym_fin p F : half_sym (N := NumX) (fm p p F) = Ok (fm p p (fun i j => 1 / 2 * (F i j + F j i))).
Proof. unfold half_sym. rewrite transpose_sq_fin, madd_fin. cbn [bind]. rewrite phalf_fin, mscale_fin. reflexivity. Qed.
Lemma half_sym_sym p F : sym p F -> half_sym (N := NumX) (fm p p F) = Ok (fm p p F).
Proof. intros H. rewrite half_sym_fin. f_equal. apply fm_ext. intros i j Hi Hj. rewrite (H j i) by auto. field. Qed.
Lemma invertible_0 A : invertible 0 A.
Proof. exists A. split; intros i j Hi; lia. Qed.

Section Run.
  Context (L : LinAlg NumX) (HL : lawful L) (log : NumX -> NumX) (Hlog : is_log log).

  Lemma block_terms_fin p T A g s m : (1 <= m)%nat -> (s + m <= p)%nat -> sym p T -> sym p A ->
    (block_terms L (fm p p T) (fm p p A) (Fin g) (seq 0 s) (seq s m) = Err LinAlgError /\ ~ invertible s A) \/
    (invertible s A /\ exists G Sg, law A g s m G Sg /\
      block_terms L (fm p p T) (fm p p A) (Fin g) (seq 0 s) (seq s m) = Ok (fm m m Sg, fm m m (resid T s G))).
  Proof.
    intros Hm Hp HT HA. destruct s as [|s'].
    { right. split; [apply invertible_0|]. exists (fun _ _ => 0), A. split.
      { split; [intros; lia|]. intros i l _ _. cbn. ring. }
      unfold block_terms. cbn [seq]. rewrite !sub_fin_seq by lia. cbn [bind]. do 2 f_equal. apply fm_ext. intros i j _ _. unfold resid. cbn. ring. }
    set (s := S s') in *. assert (Hs : (1 <= s)%nat) by lia. unfold block_terms.
    assert (M0 : forall X (a b : X), match seq 0 s with [] => a | _ :: _ => b end = b) by reflexivity. rewrite M0.
    rewrite !sub_fin_seq by lia. cbn [bind]. cbn [Nat.add].
    assert (SA : sym s A) by (intros i j Hi Hj; apply HA; lia).
    destruct (law_inv L HL s A Hs SA) as [(Ai & E & HI)|(E & HI)]; change (fm s s (fun i j => A i j)) with (fm s s A); rewrite E; [|left; split; [reflexivity|exact HI]].
    right. split; [now exists Ai|]. cbn [bind]. rewrite mscale_fin, matmul_fin by lia. cbn [bind].
    set (G := rmul s (fun i j => g * A (s + i)%nat j) Ai).
    rewrite transpose_fin by lia.
    destruct (law_solve L HL s m A (rT (fun i j => A (s + i)%nat j)) Hs SA) as [(X & E2 & _ & HX)|(E2 & HN)]; [|exfalso; apply HN; now exists Ai].
    rewrite E2. cbn [bind]. rewrite matmul_fin by lia. cbn [bind]. rewrite msub_fin. cbn [bind]. rewrite transpose_fin by lia.
    rewrite (matmul_fin m s m G) by lia. cbn [bind]. rewrite transpose_fin by lia. rewrite matmul_fin by lia. cbn [bind]. rewrite (matmul_fin m s s G) by lia. cbn [bind]. rewrite matmul_fin by lia. cbn [bind]. rewrite !msub_fin. cbn [bind]. rewrite msub_fin. cbn [bind]. rewrite madd_fin. cbn [bind].
    eexists G, _. split; [|do 2 f_equal; apply fm_ext; intros i l Hi Hl].
    - assert (GA : forall i j, (i < m)%nat -> (j < s)%nat -> rmul s G A i j = g * A (s + i)%nat j).
      { intros i j Hi Hj. unfold G. rewrite rmul_assoc. etransitivity; [|apply (rmul_I_r s (fun a b => g * A (s + a)%nat b) i j Hj)].
        unfold rmul at 1 3. apply rsum_ext. intros k Hk. now rewrite (proj2 HI k j Hk Hj). }
      split; [exact GA|]. intros i l Hi Hl. cbv beta. f_equal.
      transitivity (rmul s (rmul s G A) X i l). { unfold rmul at 1 2. apply rsum_ext. intros k Hk. now rewrite <- GA. }
      rewrite rmul_assoc. unfold rmul at 1. apply rsum_ext. intros k Hk. rewrite (HX k l Hk Hl). unfold rT. rewrite (HA (s + l)%nat k) by lia. reflexivity.
    - unfold resid. cbv beta. f_equal. unfold rmul, rT. rewrite (rsum_ext s _ (fun j => rsum s (fun k => G i k * T k j * G l j))) by (intros; rewrite <- rsum_scal_r; reflexivity). apply rsum_swap.
  Qed.

  (** value of one block *)
  Lemma block_value m Sg M : (1 <= m)%nat -> sym m Sg ->
    (~ pd m Sg /\ exists evals lo, eigvalsh L (fm m m Sg) = Ok evals /\ vmin evals = Ok lo /\ nleb lo n0 = true) \/
    (pd m Sg /\ exists evals lo X, eigvalsh L (fm m m Sg) = Ok evals /\ vmin evals = Ok lo /\ nleb lo n0 = false /\
       la_solve L (fm m m Sg) (fm m m M) = Ok (fm m m X) /\ meq m m (rmul m Sg X) M /\
       nmul mhalf (nadd (vsum (map log evals)) (mtrace (fm m m X))) = Fin (- (1 / 2) * (ln (rdet m Sg) + rtrace m X))).
  Proof.
    intros Hm HS. destruct (law_eigh L HL m Sg Hm HS) as (lam & U & E & He).
    destruct (vmin_fin m lam Hm) as (k & Hk & Ev & Hmin).
    assert (EE : eigvalsh L (fm m m Sg) = Ok (fv m lam)) by (unfold eigvalsh; rewrite E; reflexivity).
    destruct (Rle_dec (lam k) 0) as [Hle|Hgt].
    - left. split.
      + intros HP. pose proof (pd_eig m Sg U lam HP He k Hk). lra.
      + exists (fv m lam), (Fin (lam k)). split; [exact EE|]. split; [exact Ev|]. rewrite n0_fin, leb_fin. now apply Rleb_true.
    - right. assert (HP : pd m Sg).
      { apply (pd_ext m (spec m U lam)); [apply meq_sym, (eig_spec m Sg U lam He)|]. apply (bb_pd m (lam k)); [lra|]. apply spec_bb; [apply He|]. intros; auto. }
      split; [exact HP|]. destruct (law_solve L HL m m Sg M Hm HS) as [(X & E2 & _ & HX)|(_ & HN)]; [|exfalso; apply HN; now apply pd_invertible].
      exists (fv m lam), (Fin (lam k)), X. split; [exact EE|]. split; [exact Ev|]. split; [rewrite n0_fin, leb_fin; now apply Rleb_false|]. split; [exact E2|]. split; [exact HX|].
      rewrite (map_fin m log (fun i => ln (lam i)) lam), vsum_fin, mtrace_fin, add_fin, mhalf_fin, mul_fin.
      + rewrite (rdet_eig He), ln_rprod; [reflexivity|]. intros i Hi. eapply pd_eig; eauto.
      + intros i Hi. apply Hlog. eapply pd_eig; eauto.
  Qed.

  Definition best_from (T : rmat) (p s : nat) : R := - (1 / 2) * (ln (rdet p T) - ln (rdet s T) + INR (p - s)).
  Definition total (s : nat) (sizes : list nat) : nat := fold_left Nat.add sizes s.
  Lemma total_ge sizes : forall s, (s <= total s sizes)%nat.
  Proof. induction sizes as [|m r IH]; intros s; [apply le_n|]. unfold total in *. cbn [fold_left]. specialize (IH (s + m)%nat). lia. Qed.

  Lemma best_step T p s m B S : pd p T -> (s + m <= p)%nat -> law T 1 s m B S ->
    best_from T p s = - (1 / 2) * (ln (rdet m S) + INR m) + best_from T p (s + m).
  Proof.
    intros HT Hp HLw. assert (HP : pd (s + m) T) by (apply (pd_lead (s + m) (p - (s + m))); replace (s + m + (p - (s + m)))%nat with p by lia; exact HT).
    unfold best_from. rewrite (rdet_schur T s m B S HLw), ln_mult.
    - replace (p - s)%nat with (m + (p - (s + m)))%nat by lia. rewrite plus_INR. ring.
    - apply pd_det_pos. apply (pd_lead s m _ HP).
    - apply pd_det_pos. apply (schur_pd T s m B S (proj1 HP) HLw HP).
  Qed.
  Lemma lead_pd T p s : pd p T -> (s <= p)%nat -> pd s T.
  Proof. intros HT Hs. apply (pd_lead s (p - s)). replace (s + (p - s))%nat with p by lia. exact HT. Qed.

  Lemma seq_grow s m : (seq 0 s ++ seq s m)%list = seq 0 (s + m).
  Proof. now rewrite seq_app. Qed.

  (** every candidate is bounded by the best value, attained only by matching the law of every block *)
  Lemma expected_bound T A g sizes : g <> 0 -> forall s t p, total s sizes = p -> Forall (fun m => (1 <= m)%nat) sizes -> pd p T -> sym p A ->
    let r := expected_loop L log (fm p p T) (fm p p A) (Fin g) (blocks_from s sizes) (Fin t) (seq 0 s) in
    r = Err LinAlgError \/ r = Ok NInf \/
    exists v, r = Ok (Fin v) /\ v <= t + best_from T p s /\ (v = t + best_from T p s -> Forall (same_law T A g) (offsets s sizes)).
  Proof.
    intros Hg. induction sizes as [|m sizes IH]; intros s t p Ht Hf HT HA r.
    { right. right. exists t. split; [reflexivity|]. unfold total in Ht. cbn in Ht. subst s. unfold best_from. rewrite Nat.sub_diag. cbn [INR].
      split; [lra|]. intros _. constructor. }
    inversion Hf as [|? ? Hm Hf']; subst. pose proof (total_ge sizes (s + m)) as Hge. subst r. change (total s (m :: sizes)) with (total (s + m) sizes) in *. set (p := total (s + m) sizes) in *.
    cbn zeta. cbn [blocks_from expected_loop].
    destruct (block_terms_fin p T A g s m Hm Hge (proj1 HT) HA) as [(E & _)|(HI & G & Sg & HLw & E)]; rewrite E; [left; reflexivity|]. cbn [bind].
    assert (HSg : sym m Sg) by (apply (law_sym A g s m G Sg Hg); auto; intros i j Hi Hj; apply HA; lia).
    rewrite half_sym_sym by auto. cbn [bind].
    destruct (block_value m Sg (resid T s G) Hm HSg) as [(_ & ev & lo & E1 & E2 & E3)|(HP & ev & lo & X & E1 & E2 & E3 & E4 & HX & E5)];
      rewrite E1; cbn [bind]; rewrite E2; cbn [bind]; rewrite E3; [right; left; now rewrite minus_inf_x|].
    rewrite E4. cbn [bind]. rewrite E5, add_fin, seq_grow.
    destruct (law_exists T 1 s m (pd_invertible s T (lead_pd T p s HT ltac:(lia)))) as (B & S & HTL).
    assert (HTsm : pd (s + m) T) by (apply (lead_pd T p); auto).
    destruct (block_bound T s m B S G Sg X HTsm HTL HP HX) as [B1 B2]. set (gain := - (1 / 2) * (ln (rdet m Sg) + rtrace m X)) in *.
    pose proof (best_step T p s m B S HT Hge HTL) as BS.
    destruct (IH (s + m)%nat (t + gain) p eq_refl Hf' HT HA) as [E6|[E6|(v & E6 & V1 & V2)]]; rewrite E6; [left; reflexivity|right; left; reflexivity|].
    right. right. exists v. split; [reflexivity|]. rewrite BS. split; [lra|]. intros K. cbn [offsets]. constructor.
    - assert (gain = - (1 / 2) * (ln (rdet m S) + INR m)) by lra. apply B2 in H. destruct H as [K1 K2]. exists B, S. cbn [fst snd]. split; [exact HTL|].
      destruct (law_S_ext A g s m G B Sg K1 HLw) as [L1 L2]. split; [exact L1|]. intros i l Hi Hl. rewrite <- (K2 i l Hi Hl). now apply L2.
    - apply V2. lra.
  Qed.
  (** a candidate that matches the law of every block attains it *)
  Lemma expected_attained T A g sizes : g <> 0 -> forall s t p, total s sizes = p -> Forall (fun m => (1 <= m)%nat) sizes -> pd p T -> sym p A ->
    Forall (same_law T A g) (offsets s sizes) -> Forall (fun b => invertible (fst b) A) (offsets s sizes) ->
    expected_loop L log (fm p p T) (fm p p A) (Fin g) (blocks_from s sizes) (Fin t) (seq 0 s) = Ok (Fin (t + best_from T p s)).
  Proof.
    intros Hg. induction sizes as [|m sizes IH]; intros s t p Ht Hf HT HA HSL HIv.
    { unfold total in Ht. cbn in Ht. subst s. cbn. unfold best_from. rewrite Nat.sub_diag. cbn [INR]. do 2 f_equal. lra. }
    inversion Hf as [|? ? Hm Hf']; subst. pose proof (total_ge sizes (s + m)) as Hge. change (total s (m :: sizes)) with (total (s + m) sizes) in *. set (p := total (s + m) sizes) in *.
    cbn [offsets] in HSL, HIv. inversion HSL as [|? ? (B & S & HTL & HAL) HSL']; subst. inversion HIv as [|? ? HI0 HIv']; subst. cbn [fst snd] in *.
    cbn [blocks_from expected_loop].
    destruct (block_terms_fin p T A g s m Hm Hge (proj1 HT) HA) as [(_ & HN)|(HI & G & Sg & HLw & E)]; [contradiction|]. rewrite E. cbn [bind].
    destruct (law_unique A g s m G B Sg S HI HLw HAL) as [K1 K2].
    assert (HSg : sym m Sg) by (apply (law_sym A g s m G Sg Hg); auto; intros i j Hi Hj; apply HA; lia).
    assert (HTsm : pd (s + m) T) by (apply (lead_pd T p); auto).
    pose proof (schur_pd T s m B S (proj1 HTsm) HTL HTsm) as HPS.
    assert (HPg : pd m Sg) by (apply (pd_ext m S); auto; now apply meq_sym).
    rewrite half_sym_sym by auto. cbn [bind].
    destruct (block_value m Sg (resid T s G) Hm HSg) as [(HN & _)|(HP & ev & lo & X & E1 & E2 & E3 & E4 & HX & E5)]; [contradiction|].
    rewrite E1. cbn [bind]. rewrite E2. cbn [bind]. rewrite E3, E4. cbn [bind]. rewrite E5, add_fin, seq_grow.
    destruct (block_bound T s m B S G Sg X HTsm HTL HP HX) as [_ B2]. rewrite (proj2 B2 (conj K1 K2)).
    rewrite (IH (s + m)%nat _ p eq_refl Hf' HT HA HSL' HIv'). rewrite (best_step T p s m B S HT Hge HTL). do 2 f_equal. ring.
  Qed.
  (** two symmetric candidates that match the laws of T in every block coincide *)
  Lemma same_law_unique T A C g sizes : g <> 0 -> forall s p, total s sizes = p -> pd p T -> sym p A -> sym p C -> meq s s A C ->
    Forall (same_law T A g) (offsets s sizes) -> Forall (same_law T C g) (offsets s sizes) -> meq p p A C.
  Proof.
    intros Hg. induction sizes as [|m sizes IH]; intros s p Ht HT HA HC H0 H1 H2.
    { unfold total in Ht. cbn in Ht. now subst s. }
    pose proof (total_ge sizes (s + m)) as Hge. subst p. change (total s (m :: sizes)) with (total (s + m) sizes) in *. set (p := total (s + m) sizes) in *.
    cbn [offsets] in H1, H2. inversion H1 as [|? ? (B & S & HTL & HAL) H1']; subst. inversion H2 as [|? ? (B' & S' & HTL' & HCL) H2']; subst. cbn [fst snd] in *.
    destruct (law_unique T 1 s m B B' S S' (pd_invertible s T (lead_pd T p s HT ltac:(lia))) HTL HTL') as [E1 E2].
    apply (IH (s + m)%nat p eq_refl HT HA HC); auto.
    assert (KW : forall i j, (i < m)%nat -> (j < s)%nat -> A (s + i)%nat j = C (s + i)%nat j).
    { intros i j Hi Hj. apply (Rmult_eq_reg_l g); auto. rewrite <- (proj1 HAL i j Hi Hj), <- (proj1 HCL i j Hi Hj). unfold rmul. apply rsum_ext. intros k Hk. now rewrite (E1 i k Hi Hk), (H0 k j Hk Hj). }
    assert (KK : forall i l, (i < m)%nat -> (l < m)%nat -> A (s + i)%nat (s + l)%nat = C (s + i)%nat (s + l)%nat).
    { intros i l Hi Hl. pose proof (proj2 HAL i l Hi Hl) as F1. pose proof (proj2 HCL i l Hi Hl) as F2. rewrite (E2 i l Hi Hl) in F1.
      assert (EQ : rsum s (fun k => B i k * A k (s + l)%nat) = rsum s (fun k => B' i k * C k (s + l)%nat)).
      { apply rsum_ext. intros k Hk. rewrite (E1 i k Hi Hk), (HA k (s + l)%nat), (HC k (s + l)%nat), (KW l k Hl Hk) by lia. reflexivity. }
      lra. }
    intros i j Hi Hj. destruct (Nat.lt_ge_cases i s) as [Ci|Ci]; destruct (Nat.lt_ge_cases j s) as [Cj|Cj].
    - auto.
    - rewrite (HA i j), (HC i j) by lia. replace j with (s + (j - s))%nat by lia. apply KW; lia.
    - replace i with (s + (i - s))%nat by lia. apply KW; lia.
    - replace i with (s + (i - s))%nat by lia. replace j with (s + (j - s))%nat by lia. apply KK; lia.
  Qed.

  (** ** closed_form_general *)
  Lemma position_seq i a m : position i (seq a m) = if ((a <=? i) && (i <? a + m))%nat%bool then Some (i - a)%nat else None.
  Proof.
    unfold position. assert (E : forall m a k, (fix go (l : list nat) (k : nat) {struct l} : option nat := match l with [] => None | x :: r => if (x =? i)%nat then Some k else go r (S k) end) (seq a m) k
        = if ((a <=? i) && (i <? a + m))%nat%bool then Some (k + (i - a))%nat else None).
    { clear a m. induction m as [|m IH]; intros a k; cbn [seq].
      - destruct (Nat.leb_spec a i), (Nat.ltb_spec i (a + 0)); cbn; auto; lia.
      - destruct (Nat.eqb_spec a i).
        + subst. destruct (Nat.leb_spec i i), (Nat.ltb_spec i (i + S m)); cbn; try lia. f_equal. lia.
        + rewrite IH. destruct (Nat.leb_spec (S a) i), (Nat.ltb_spec i (S a + m)), (Nat.leb_spec a i), (Nat.ltb_spec i (a + S m)); cbn; try lia; auto. f_equal. lia. }
    rewrite E. reflexivity.
  Qed.
  Definition patch (F : rmat) (a m b k : nat) (V : rmat) : rmat := fun i j =>
    if ((a <=? i) && (i <? a + m) && (b <=? j) && (j <? b + k))%nat%bool then V (i - a)%nat (j - b)%nat else F i j.
  Lemma set_sub_fin p F a m b k V : (1 <= p)%nat -> set_sub (N := NumX) (fm p p F) (seq a m) (seq b k) (fm m k V) = fm p p (patch F a m b k V).
  Proof.
    intros Hp. unfold set_sub. rewrite fm_nrows, fm_ncols by auto. change (fm p p (patch F a m b k V)) with (tab2 p p (fun i j => Fin (patch F a m b k V i j) : NumX)). apply tab2_ext. intros i j Hi Hj. rewrite !position_seq. unfold patch.
    destruct (Nat.leb_spec a i), (Nat.ltb_spec i (a + m)), (Nat.leb_spec b j), (Nat.ltb_spec j (b + k)); cbn [andb]; rewrite ?fm_get by lia; reflexivity.
  Qed.
  Lemma closed_step_fin p T g C s m B S : g <> 0 -> (1 <= m)%nat -> (s + m <= p)%nat -> pd p T -> sym s C -> law T 1 s m B S ->
    exists C', meq s s C' C /\ sym (s + m) C' /\ law C' g s m B S /\
    forall rest, closed_loop L (fm p p T) (Fin g) (seq s m :: rest) (fm p p C) (seq 0 s) = closed_loop L (fm p p T) (Fin g) rest (fm p p C') (seq 0 (s + m)).
  Proof.
    intros Hg Hm Hp HT HC HTL. destruct s as [|s'].
    { exists (patch C 0 m 0 m T). assert (E : forall i j, (i < m)%nat -> (j < m)%nat -> patch C 0 m 0 m T i j = T i j).
      { intros i j Hi Hj. unfold patch. cbn [Nat.leb Nat.add andb]. rewrite !(proj2 (Nat.ltb_lt _ _)) by lia. cbn [andb]. now rewrite !Nat.sub_0_r. }
      split; [intros i j Hi; lia|]. split; [intros i j Hi Hj; rewrite !E by lia; apply HT; lia|]. split.
      { split; [intros; lia|]. intros i l Hi Hl. rewrite (proj2 HTL) by auto. cbn [Nat.add rsum]. now rewrite E. }
      intros rest. cbn [closed_loop seq]. rewrite sub_fin_seq by lia. cbn [bind]. rewrite set_sub_fin by lia. reflexivity. }
    set (s := Datatypes.S s') in *. assert (Hs : (1 <= s)%nat) by lia.
    assert (ST : sym s T) by (intros i j Hi Hj; apply HT; lia).
    destruct (law_inv L HL s T Hs ST) as [(Ti & EI & HI)|(_ & HN)]; [|exfalso; apply HN, pd_invertible, (lead_pd T p s HT); lia].
    set (B0 := rmul s (fun i j => T (s + i)%nat j) Ti).
    set (S0 := fun i l => T (s + i)%nat (s + l)%nat - rmul s B0 (rT (fun i j => T (s + i)%nat j)) i l).
    assert (L0 : law T 1 s m B0 S0).
    { split.
      - intros i j Hi Hj. unfold B0. rewrite rmul_assoc. rewrite Rmult_1_l. etransitivity; [|apply (rmul_I_r s (fun a b => T (s + a)%nat b) i j Hj)].
        unfold rmul at 1 3. apply rsum_ext. intros k Hk. now rewrite (proj2 HI k j Hk Hj).
      - intros i l Hi Hl. unfold S0. f_equal. unfold rmul. apply rsum_ext. intros k Hk. unfold rT. rewrite (proj1 HT (s + l)%nat k) by lia. reflexivity. }
    destruct (law_unique T 1 s m B0 B S0 S (pd_invertible s T (lead_pd T p s HT ltac:(lia))) L0 HTL) as [EB ES].
    set (Gk := fun i j => B0 i j / g). set (KW := rmul s Gk C).
    set (KK := fun i l => S0 i l + rmul s (rmul s (fun i j => g * Gk i j) C) (rT Gk) i l).
    set (C1 := patch C s m 0 s KW). set (C2 := patch C1 0 s s m (rT KW)). set (C' := patch C2 s m s m KK).
    assert (Q11 : forall i j, (i < s)%nat -> (j < s)%nat -> C' i j = C i j).
    { intros i j Hi Hj. unfold C', C2, C1, patch. rewrite (proj2 (Nat.leb_gt s i)) by lia. rewrite (proj2 (Nat.leb_gt s j)) by lia. cbn [andb]. rewrite !andb_false_r. reflexivity. }
    assert (Q21 : forall i j, (i < m)%nat -> (j < s)%nat -> C' (s + i)%nat j = KW i j).
    { intros i j Hi Hj. unfold C', C2, C1, patch. rewrite (proj2 (Nat.leb_gt s j)) by lia. rewrite (proj2 (Nat.ltb_ge (s + i) (0 + s))) by lia. cbn [andb]. rewrite !andb_false_r. cbn [andb].
      rewrite (proj2 (Nat.leb_le s (s + i))), (proj2 (Nat.ltb_lt (s + i) (s + m))), (proj2 (Nat.ltb_lt j (0 + s))), (proj2 (Nat.leb_le 0 j)) by lia. cbn [andb]. f_equal; lia. }
    assert (Q12 : forall i j, (i < m)%nat -> (j < s)%nat -> C' j (s + i)%nat = KW i j).
    { intros i j Hi Hj. unfold C', C2, patch. rewrite (proj2 (Nat.leb_gt s j)) by lia. cbn [andb].
      rewrite (proj2 (Nat.leb_le 0 j)), (proj2 (Nat.ltb_lt j (0 + s))), (proj2 (Nat.leb_le s (s + i))), (proj2 (Nat.ltb_lt (s + i) (s + m))) by lia. cbn [andb]. unfold rT. f_equal; lia. }
    assert (Q22 : forall i l, (i < m)%nat -> (l < m)%nat -> C' (s + i)%nat (s + l)%nat = KK i l).
    { intros i l Hi Hl. unfold C', patch. rewrite !(proj2 (Nat.leb_le _ _)), !(proj2 (Nat.ltb_lt _ _)) by lia. cbn [andb]. f_equal; lia. }
    assert (L2 : law C' g s m B0 S0).
    { split.
      - intros i j Hi Hj. rewrite Q21 by auto. unfold KW, rmul. rewrite <- rsum_scal. apply rsum_ext. intros k Hk. rewrite Q11 by auto. unfold Gk. field. auto.
      - intros i l Hi Hl. rewrite Q22 by auto. unfold KK. replace (rmul s (rmul s (fun i j => g * Gk i j) C) (rT Gk) i l) with (rsum s (fun k => B0 i k * C' k (s + l)%nat)); [ring|].
        rewrite rmul_assoc. unfold rmul at 1. apply rsum_ext. intros k Hk. rewrite Q12 by auto. unfold KW, Gk. replace (g * (B0 i k / g)) with (B0 i k) by (field; auto). f_equal.
        unfold rmul, rT. apply rsum_ext. intros j Hj. rewrite (HC k j) by auto. ring. }
    exists C'. split; [exact Q11|]. assert (SC : sym (s + m) C').
    { assert (SS : sym m S0) by (refine (law_sym T 1 s m B0 S0 ltac:(lra) _ L0); intros i j Hi Hj; apply HT; lia).
      assert (SK : forall i l, (i < m)%nat -> (l < m)%nat -> KK i l = KK l i).
      { intros i l Hi Hl. unfold KK. rewrite (SS i l) by auto. f_equal. unfold rmul, rT.
        rewrite (rsum_ext s _ (fun k => rsum s (fun j => g * Gk i j * C j k * Gk l k))) by (intros; rewrite <- rsum_scal_r; reflexivity).
        rewrite (rsum_ext s (fun k => rsum s (fun k0 => g * Gk l k0 * C k0 k) * Gk i k) (fun k => rsum s (fun j => g * Gk l j * C j k * Gk i k))) by (intros; rewrite <- rsum_scal_r; reflexivity).
        rewrite rsum_swap. apply rsum_ext. intros j Hj. apply rsum_ext. intros k Hk. rewrite (HC j k) by auto. ring. }
      intros i j Hi Hj. destruct (Nat.lt_ge_cases i s) as [Ci|Ci]; destruct (Nat.lt_ge_cases j s) as [Cj|Cj].
      - rewrite !Q11 by auto. auto.
      - replace j with (s + (j - s))%nat by lia. rewrite Q12, Q21 by lia. reflexivity.
      - replace i with (s + (i - s))%nat by lia. rewrite Q12, Q21 by lia. reflexivity.
      - replace i with (s + (i - s))%nat by lia. replace j with (s + (j - s))%nat by lia. rewrite !Q22 by lia. apply SK; lia. }
    split; [exact SC|]. split.
    { destruct (law_S_ext C' g s m B0 B S0 EB L2) as [X1 X2]. split; [exact X1|]. intros i l Hi Hl. rewrite <- (ES i l Hi Hl). now apply X2. }
    intros rest. cbn [closed_loop]. assert (M0 : forall X (a b : X), match seq 0 s with [] => a | _ :: _ => b end = b) by reflexivity. rewrite M0.
    rewrite !sub_fin_seq by lia. cbn [bind]. cbn [Nat.add]. change (fm s s (fun i j => T i j)) with (fm s s T). rewrite EI. cbn [bind].
    rewrite matmul_fin by lia. cbn [bind]. fold B0. rewrite transpose_fin by lia. rewrite matmul_fin by lia. cbn [bind]. rewrite msub_fin. cbn [bind]. fold S0.
    rewrite mdivs_fin by auto. fold Gk. change (fm s s (fun i j => C i j)) with (fm s s C). rewrite (matmul_fin m s s Gk) by lia. cbn [bind]. fold KW. rewrite mscale_fin, matmul_fin by lia. cbn [bind].
    rewrite transpose_fin by lia. rewrite matmul_fin by lia. cbn [bind]. rewrite madd_fin. cbn [bind]. fold KK. rewrite set_sub_fin by lia. fold C1.
    rewrite transpose_fin by lia. rewrite set_sub_fin by lia. fold C2. rewrite set_sub_fin by lia. fold C'. rewrite seq_grow. reflexivity.
  Qed.
  Lemma law_meq C D g s m B S : meq (s + m) (s + m) C D -> law C g s m B S -> law D g s m B S.
  Proof.
    intros E [H1 H2]. split.
    - intros i j Hi Hj. rewrite <- (E (s + i)%nat j) by lia. rewrite <- H1 by auto. unfold rmul. apply rsum_ext. intros k Hk. now rewrite (E k j) by lia.
    - intros i l Hi Hl. rewrite <- (E (s + i)%nat (s + l)%nat) by lia. rewrite H2 by auto. f_equal. apply rsum_ext. intros k Hk. now rewrite (E k (s + l)%nat) by lia.
  Qed.
  Lemma closed_loop_fin T g sizes : g <> 0 -> forall s p C, total s sizes = p -> Forall (fun m => (1 <= m)%nat) sizes -> pd p T -> sym s C ->
    exists C', closed_loop L (fm p p T) (Fin g) (blocks_from s sizes) (fm p p C) (seq 0 s) = Ok (fm p p C') /\ meq s s C' C /\ sym p C' /\ Forall (same_law T C' g) (offsets s sizes).
  Proof.
    intros Hg. induction sizes as [|m sizes IH]; intros s p C Ht Hf HT HC.
    { unfold total in Ht. cbn in Ht. subst s. exists C. split; [reflexivity|]. split; [apply meq_refl|]. split; [auto|constructor]. }
    inversion Hf as [|? ? Hm Hf']; subst. pose proof (total_ge sizes (s + m)) as Hge. change (total s (m :: sizes)) with (total (s + m) sizes) in *. set (p := total (s + m) sizes) in *.
    destruct (law_exists T 1 s m (pd_invertible s T (lead_pd T p s HT ltac:(lia)))) as (B & S & HTL).
    destruct (closed_step_fin p T g C s m B S Hg Hm Hge HT HC HTL) as (C1 & E1 & E2 & E3 & E4).
    destruct (IH (s + m)%nat p C1 eq_refl Hf' HT E2) as (C' & F1 & F2 & F3 & F4).
    exists C'. cbn [blocks_from]. rewrite E4. split; [exact F1|]. split.
    { intros i j Hi Hj. rewrite (F2 i j) by lia. now apply E1. }
    split; [exact F3|]. cbn [offsets]. constructor; [|exact F4]. exists B, S. cbn [fst snd]. split; [exact HTL|]. apply (law_meq C1); [now apply meq_sym|exact E3].
  Qed.
  Lemma closed_form_fin T g sizes p : g <> 0 -> total 0 sizes = p -> Forall (fun m => (1 <= m)%nat) sizes -> pd p T ->
    exists C, closed_form_general L (fm p p T) sizes (Fin g) = Ok (fm p p C) /\ sym p C /\ Forall (same_law T C g) (offsets 0 sizes).
  Proof.
    intros Hg Ht Hf HT. destruct (closed_loop_fin T g sizes Hg 0%nat p (fun _ _ => 0) Ht Hf HT) as (C & E1 & _ & E2 & E3); [intros i j Hi; lia|].
    exists C. split; [|split; auto]. unfold closed_form_general. fold (total 0 sizes). rewrite Ht, mzeros_fin. unfold blocks_of. cbn [seq] in E1. rewrite E1. cbn [bind]. now apply half_sym_sym.
  Qed.
End Run.

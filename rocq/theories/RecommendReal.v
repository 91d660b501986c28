(** * covariance_features on finite samples *)
From Coq Require Import Reals ZArith Bool String List Lia Lra Psatz Arith.
From Verif Require Import Num Numpy PyVal LinalgModel StateModel BaseModel Estimators RegistryModel AssessModel RecommendModel
  ListLemmas RMat LinSpec RealSpec GaussSpec AssessSpec RecommendSpec Fin RunFin RunAvg EmpFacts Spectral MatAlg Det Contracts LinalgReal GaussReal ScoreReal AssessReal.
Import ListNotations.
Local Open Scope R_scope.

Lemma floor12_pos x : 0 < floor12 x.
Proof. unfold floor12. pose proof (Rmax_r x (1 / 10 ^ 12)). lra. Qed.
Lemma floor12_ge x : x <= floor12 x. Proof. apply Rmax_l. Qed.
Lemma floor12_idem x : floor12 (floor12 x) = floor12 x.
Proof. unfold floor12. apply Rmax_left. apply Rmax_r. Qed.
Lemma clip12 x : np_clip_lo (Fin x : NumX) (nlit 1 12) = Fin (floor12 x).
Proof. rewrite lit12, np_clip_lo_fin. reflexivity. Qed.

Lemma vmax_fin p f : (1 <= p)%nat -> exists k, (k < p)%nat /\ vmax (fv p f) = Ok (Fin (f k)) /\ forall i, (i < p)%nat -> f i <= f k.
Proof.
  intros Hp. destruct p as [|p]; [lia|]. clear Hp.
  assert (E : forall q g, fv (S q) g = (Fin (g O) : NumX) :: fv q (fun i => g (S i))).
  { intros. unfold fv, tab. cbn [seq map]. f_equal. rewrite <- seq_shift, map_map. reflexivity. }
  rewrite E. cbn [vmax].
  assert (G : forall q g x, exists k, (k <= q)%nat /\
    fold_left np_max (fv q g) (Fin x : NumX) = Fin (match k with O => x | S i => g i end) /\
    x <= (match k with O => x | S i => g i end) /\ forall i, (i < q)%nat -> g i <= (match k with O => x | S i => g i end)).
  { induction q as [|q IH]; intros g x.
    - exists O. split; [lia|]. split; [reflexivity|]. split; [lra|intros; lia].
    - rewrite E. cbn [fold_left]. rewrite np_max_fin.
      destruct (IH (fun i => g (S i)) (Rmax x (g O))) as (k & Hk & Ek & L1 & L2).
      pose proof (Rmax_l x (g O)). pose proof (Rmax_r x (g O)).
      destruct k as [|k].
      + unfold Rmax in *. destruct (Rle_dec x (g O)).
        * exists 1%nat. split; [lia|]. split; [auto|]. split; [lra|]. intros [|i] Hi; [lra|apply L2; lia].
        * exists O. split; [lia|]. split; [auto|]. split; [lra|]. intros [|i] Hi; [lra|apply L2; lia].
      + exists (S (S k)). split; [lia|]. split; [auto|]. split; [lra|]. intros [|i] Hi; [lra|apply L2; lia]. }
  destruct (G p (fun i => f (S i)) (f O)) as (k & Hk & Ek & L1 & L2). exists k. split; [lia|].
  rewrite Ek. split; [destruct k; reflexivity|]. intros [|i] Hi; destruct k; auto; apply L2; lia.
Qed.

(** ** the off-diagonal entries *)
Definition others (p i : nat) : list nat := filter (fun j => negb (Nat.eqb i j)) (seq 0 p).
Lemma lsum_others p i (g : nat -> R) : lsum (map g (others p i)) = rsum p (fun j => if Nat.eqb i j then 0 else g j).
Proof.
  unfold others. induction p as [|p IH]; [reflexivity|]. rewrite seq_S, filter_app, map_app, lsum_app, IH. cbn [filter Nat.add]. cbn [rsum].
  destruct (Nat.eqb i p); cbn [negb map lsum]; ring.
Qed.
Lemma others_length p i : (i < p)%nat -> length (others p i) = (p - 1)%nat.
Proof.
  intros H. apply INR_eq. pose proof (lsum_others p i (fun _ => 1)) as K. rewrite (lsum_const 1) in K.
  rewrite (rsum_ext p _ (fun j => 1 - if Nat.eqb i j then 1 else 0)) in K by (intros j _; destruct (Nat.eqb i j); ring).
  rewrite rsum_minus, rsum_const, (rsum_delta' p i (fun _ => 1)) in K by auto. rewrite minus_INR by lia. cbn [INR]. lra.
Qed.
Lemma offdiag_fin p F : offdiag (N := NumX) p (fm p p F) = map (fun e : nat * nat => Fin (F (fst e) (snd e)) : NumX) (concat (map (fun i => map (pair i) (others p i)) (seq 0 p))).
Proof.
  unfold offdiag, tab. rewrite concat_map, map_map. f_equal. apply map_ext_in. intros i Hi. apply in_seq in Hi. rewrite map_map. apply map_ext_in. intros j Hj.
  unfold others in Hj. apply filter_In in Hj. destruct Hj as [Hj _]. apply in_seq in Hj. cbn [fst snd]. rewrite fm_get by lia. reflexivity.
Qed.
Lemma pairs_length p : length (concat (map (fun i => map (pair i) (others p i)) (seq 0 p))) = (p * (p - 1))%nat.
Proof.
  assert (G : forall l, (forall i, In i l -> (i < p)%nat) -> length (concat (map (fun i => map (pair i) (others p i)) l)) = (length l * (p - 1))%nat).
  { induction l as [|i l IH]; intros H; [reflexivity|]. cbn [map concat length]. rewrite app_length, map_length, others_length, IH; [lia|firstorder|apply H; now left]. }
  rewrite G; [now rewrite seq_length|]. intros i Hi. apply in_seq in Hi. lia.
Qed.
Lemma pairs_sum p (g : nat -> nat -> R) : lsum (map (fun e => g (fst e) (snd e)) (concat (map (fun i => map (pair i) (others p i)) (seq 0 p)))) =
  rsum p (fun i => rsum p (fun j => if Nat.eqb i j then 0 else g i j)).
Proof.
  assert (G : forall l, lsum (map (fun e => g (fst e) (snd e)) (concat (map (fun i => map (pair i) (others p i)) l))) =
    lsum (map (fun i => rsum p (fun j => if Nat.eqb i j then 0 else g i j)) l)).
  { induction l as [|i l IH]; [reflexivity|]. cbn [map concat lsum]. rewrite map_app, lsum_app, IH, map_map. cbn [fst snd]. now rewrite lsum_others. }
  rewrite G. clear G. generalize (fun i => rsum p (fun j => if Nat.eqb i j then 0 else g i j)) as h. intros h. generalize p as q. induction q as [|q IH]; [reflexivity|].
  rewrite seq_S, map_app, lsum_app, IH. cbn [map lsum rsum Nat.add]. ring.
Qed.

Section L.
  Context (L : LinAlg NumX) (HL : lawful L).

  Lemma features_fin p xs : (1 <= p)%nat -> xs <> [] ->
    exists U lam a b, la_eigh L (fm p p (pcov_of xs)) = Ok (fv p lam, fm p p U) /\ eig_of p (pcov_of xs) U lam /\
      (a < p)%nat /\ (b < p)%nat /\ (forall i, (i < p)%nat -> floor12 (lam b) <= floor12 (lam i) <= floor12 (lam a)) /\
      covariance_features L (In2 (map (fv p) xs)) = Ok (mkFeatures (N := NumX) (length xs) p (Fin (INR p / INR (length xs)))
        (Fin (participation p (fun i => floor12 (lam i)))) (Fin (participation p (fun i => floor12 (lam i)) / INR p))
        (Fin (floor12 (lam a) / floor12 (lam b))) (Fin (mean_abs_offdiag p xs)) (Fin (excess_kurtosis p xs))).
  Proof.
    intros Hp Hx. assert (Hn : (1 <= length xs)%nat) by (destruct xs; cbn; [congruence|lia]).
    assert (NZ : INR (length xs) <> 0) by (apply not_0_INR; lia). assert (PZ : INR p <> 0) by (apply not_0_INR; lia).
    destruct (law_eigh L HL p (pcov_of xs) Hp (proj1 (psd_pcov p xs))) as (lam & U & EE & HE).
    set (c := fun i => floor12 (lam i)).
    destruct (vmax_fin p c Hp) as (a & Ha & Ea & Ma). destruct (vmin_fin p c Hp) as (b & Hb & Eb & Mb).
    exists U, lam, a, b. split; [exact EE|]. split; [exact HE|]. split; [auto|]. split; [auto|]. split; [intros i Hi; split; [now apply Mb|now apply Ma]|].
    unfold covariance_features. cbn [as_rows bind].
    assert (EN : nrows (N := NumX) (map (fv p) xs) = length xs) by (unfold nrows; apply map_length).
    assert (EC : ncols (N := NumX) (map (fv p) xs) = p) by (rewrite fm_of_rows, fm_ncols; auto).
    rewrite EN, EC, np_cov_fin by auto. cbn [bind]. rewrite EE. cbn [bind].
    assert (E1 : map (fun e : NumX => np_clip_lo e (nlit 1 12)) (fv p lam) = fv p c) by (apply map_fin; intros; apply clip12).
    rewrite E1. rewrite vsum_fin.
    assert (E2 : map nsq (fv p c) = fv p (fun i => c i * c i)) by (apply map_fin; reflexivity).
    rewrite E2, vsum_fin. rewrite n0_fin, ltb_fin, nsq_fin.
    assert (C0 : forall i, 0 < c i) by (intros; apply floor12_pos).
    assert (T0 : 0 < rsum p c) by (apply (rsum_pos p c O); [intros; left; auto|lia|auto]).
    assert (S0 : 0 < rsum p (fun i => c i * c i)) by (apply (rsum_pos p _ O); [intros i _; left; apply Rmult_lt_0_compat; auto|lia|apply Rmult_lt_0_compat; auto]).
    rewrite Rltb_true by auto. rewrite py_div_fin by lra. cbn [bind].
    set (v := fun i => floor12 (pcov_of xs i i)).
    assert (E3 : map (fun e : NumX => np_clip_lo e (nlit 1 12)) (diagonal (fm p p (pcov_of xs))) = fv p v) by (rewrite diagonal_fin; apply map_fin; intros; apply clip12).
    rewrite E3. rewrite outer_fin.
    assert (V0 : forall i, 0 < v i) by (intros; apply floor12_pos).
    rewrite (mmap_fin p p nsqrt _ (fun i j => sqrt (v i * v j))) by (intros; apply sqrt_fin; left; apply Rmult_lt_0_compat; auto).
    rewrite mdiv_fin by (intros; apply Rgt_not_eq, sqrt_lt_R0, Rmult_lt_0_compat; auto). cbn [bind].
    set (corr := fun i j => pcov_of xs i j / sqrt (v i * v j)).
    assert (E4 : tab p (fun j => vmean (mcol (N := NumX) (map (fv p) xs) j)) = fv p (mean_of xs)).
    { rewrite fm_of_rows. apply tab_ext. intros j Hj. rewrite mcol_fin, vmean_fin by auto. f_equal. unfold mean_of. f_equal.
      rewrite (lsum_at _ _ (fun _ => 0)). reflexivity. }
    rewrite E4.
    assert (E5 : mapM (fun row => vsub (N := NumX) row (fv p (mean_of xs))) (map (fv p) xs) = Ok (fm (length xs) p (fun t j => at_ xs t j - mean_of xs j))).
    { rewrite fm_of_rows. unfold fm, tab2. apply mapM_tab. intros t Ht. apply vsub_fin. }
    rewrite E5. cbn [bind].
    assert (E6 : tab p (fun j => vmean (map (fun x : NumX => nsq (nsq x)) (mcol (N := NumX) (fm (length xs) p (fun t j => at_ xs t j - mean_of xs j)) j))) = fv p (moment4 xs)).
    { apply tab_ext. intros j Hj. rewrite mcol_fin by auto.
      rewrite (map_fin _ _ (fun t => (at_ xs t j - mean_of xs j) ^ 4)) by (intros; rewrite !nsq_fin; f_equal; ring).
      rewrite vmean_fin by auto. f_equal. unfold moment4, lmean. rewrite map_length. f_equal. rewrite (lsum_at _ _ (fun _ => 0)). reflexivity. }
    rewrite E6. rewrite (map_fin p (fun v0 : NumX => nsq (np_clip_lo v0 (nlit 1 12))) (fun i => v i * v i)) by (intros; rewrite clip12, nsq_fin; unfold v; now rewrite floor12_idem).
    rewrite vdiv_fin by (intros i _; specialize (V0 i); nra). cbn [bind].
    rewrite (map_fin p (fun x : NumX => nsub x (nofZ 3)) (fun i => moment4 xs i / (v i * v i) - 3)) by (intros; reflexivity).
    rewrite vmean_fin by auto. rewrite !nofn_fin, !py_div_fin by auto. cbn [bind]. rewrite Ea, Eb. cbn [bind]. rewrite div_fin by (apply Rgt_not_eq, C0).
    f_equal. f_equal.
    - unfold mean_abs_offdiag. destruct (Nat.ltb_spec 1 p) as [H1|H1], (Nat.leb_spec p 1); try lia.
      + rewrite offdiag_fin, map_map.
        rewrite (map_ext _ (fun e : nat * nat => Fin (Rabs (corr (fst e) (snd e))) : NumX)) by (intros; apply nabs_fin).
        assert (LL : concat (map (fun i => map (pair i) (others p i)) (seq 0 p)) <> []).
        { intros K. pose proof (pairs_length p) as PL. rewrite K in PL. cbn in PL. nia. }
        rewrite vmean_map by exact LL. f_equal. unfold lmean. rewrite map_length, pairs_length.
        rewrite (pairs_sum p (fun i j => Rabs (corr i j))). rewrite mult_INR, minus_INR by lia. reflexivity.
      + cbn [map]. rewrite nabs_fin, Rabs_R0. change [Fin 0 : NumX] with (fv 1 (fun _ => 0)). rewrite vmean_fin by lia. f_equal. cbn. lra.
    - f_equal. unfold excess_kurtosis. f_equal. apply rsum_ext. intros j Hj. unfold v. f_equal. f_equal. ring.
  Qed.
End L.

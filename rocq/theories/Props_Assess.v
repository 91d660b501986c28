(** * C60 - C65, C69, C70: registries and assessors

    [assess L a cov X_test true_cov] is [a.score(cov, X_test=..., true_cov=...)].
    Law-free theorems (C60, C61, C64_unusual_block_sizes, C65_no_blocks) hold for every number type and LAPACK;
    the rest is exact arithmetic for lawful LAPACK ([lawful], Contracts.v). *)
From Coq Require Import Reals ZArith String List Lia Lra Arith Bool.
From Verif Require Import Num Numpy LinalgModel BaseModel Estimators RegistryModel ListLemmas RMat LinSpec Fin RealSpec EwaReal EmpFacts Spectral MatAlg Det
  Contracts LinalgReal BlockSpec BlockGeom BlockReal BlockRun GaussSpec GaussReal AssessModel ScoreReal AssessSpec AssessReal AssessBlock Props_Emp Props_Score.
Import ListNotations.
Local Open Scope string_scope.
Local Open Scope R_scope.

(** ** C60 *)
Lemma lookup_spec {N : Num} (l : list (Registered N)) name :
  match lookup l name with
  | Ok r => In r l /\ c_name (rg_class r) = name
  | Err e => e = KeyError /\ ~ In name (map (fun r => c_name (rg_class r)) l)
  end.
Proof.
  induction l as [|r l IH]; cbn [lookup map]; [auto|]. destruct (String.eqb_spec (c_name (rg_class r)) name) as [E|E].
  - split; [now left|auto].
  - destruct (lookup l name); [destruct IH; split; [now right|auto]|]. destruct IH. split; auto. intros [?|?]; auto.
Qed.
(** estimator_from_name answers exactly the registered names, with the class of that name (names are distinct). *)
Theorem C60_estimator_lookup (N : Num) (L : LinAlg N) fuel :
  NoDup (estimator_names L fuel) /\ List.length (estimator_names L fuel) = 17%nat /\
  (forall r, In r (all_estimators L fuel) -> estimator_from_name L fuel (c_name (rg_class r)) = Ok r) /\
  (forall name, match estimator_from_name L fuel name with
    | Ok r => In r (all_estimators L fuel) /\ c_name (rg_class r) = name
    | Err e => e = KeyError /\ ~ In name (estimator_names L fuel)
    end).
Proof.
  split; [|split; [reflexivity|split]].
  - unfold estimator_names, registry. cbn. repeat constructor; cbn; intuition discriminate.
  - intros r Hr. unfold all_estimators, registry in Hr. cbn [In] in Hr. unfold estimator_from_name.
    repeat match type of Hr with _ = r \/ _ => destruct Hr as [<-|Hr]; [reflexivity|] end. destruct Hr.
  - intros name. apply lookup_spec.
Qed.
Theorem C60_assessor_lookup (N : Num) :
  NoDup (map aname (@all_assessors N)) /\
  (forall a, In a (@all_assessors N) -> assessor_from_name (aname a) = Ok a) /\
  (forall name, match @assessor_from_name N name with
    | Ok a => In a all_assessors /\ aname a = name
    | Err e => e = KeyError /\ ~ In name (map aname (@all_assessors N))
    end).
Proof.
  split; [|split].
  - cbn. repeat constructor; cbn; intuition discriminate.
  - intros a Ha. cbn [In all_assessors] in Ha. repeat match type of Ha with _ = a \/ _ => destruct Ha as [<-|Ha]; [reflexivity|] end. destruct Ha.
  - intros name. unfold assessor_from_name. destruct (find _ _) as [a|] eqn:E.
    + apply find_some in E. destruct E as [E1 E2]. split; auto. now apply String.eqb_eq.
    + split; auto. intros H. apply in_map_iff in H. destruct H as (a & E1 & E2). pose proof (find_none _ _ E a E2) as F. cbn in F.
      rewrite E1, String.eqb_refl in F. discriminate.
Qed.

(** ** C61 *)
(** FrobeniusToTruth is the only assessor that needs the truth, the other six need held-out data and nothing else. *)
Theorem C61_usable (N : Num) (a : @assessor N) have_data have_truth :
  usable a have_data have_truth = true <->
  match a with FrobeniusToTruth => have_truth = true | _ => have_data = true end.
Proof. destruct a, have_data, have_truth; cbn; intuition discriminate. Qed.
(** What an assessor does not need does not influence its score. *)
Theorem C61_unneeded_input_is_ignored (N : Num) (L : LinAlg N) a cov X X' T T' :
  (usable a true false = true -> assess L a cov X T = assess L a cov X T') /\
  (usable a false true = true -> assess L a cov X T = assess L a cov X' T).
Proof. split; destruct a; cbn; intros H; try discriminate; reflexivity. Qed.
(** The instances the registry holds, with their parameters. *)
Theorem C60_assessor_parameters :
  @all_assessors NumX = [LogLikelihood; BlockPseudoLikelihood 10; SchurLikelihood (N := NumX) (Fin (1 / 2)) 4 "linear"; SteinLoss; FrobeniusToTruth; GMVVariance; VariogramScore]%list.
Proof. assert (E : @nlit NumX 5 1 = Fin (1 / 2)) by (rewrite nlit_fin; f_equal; cbn; lra). unfold all_assessors. now rewrite E. Qed.
(** An assessor that is not usable never returns a number computed from nothing: it raises, with three exceptions:
    FrobeniusToTruth without true_cov gives nan, and BlockPseudoLikelihood without X_test gives 0.0 when its block
    size is negative or there are no variables. *)
Theorem C61_missing_input (N : Num) (L : LinAlg N) a cov have_data have_truth X T :
  usable a have_data have_truth = false -> (have_data = false -> X = None) -> (have_truth = false -> T = None) ->
  (exists e, assess L a cov X T = Err e) \/
  (a = FrobeniusToTruth /\ assess L a cov X T = Ok nnan) \/
  (exists b, a = BlockPseudoLikelihood b /\ (b < 0 \/ nrows cov = O /\ b <> 0)%Z /\ assess L a cov X T = Ok n0).
Proof.
  intros H HX HT. pose proof (C61_usable N a have_data have_truth) as U.
  destruct a; cbn [assess].
  2:{ rewrite HX by (destruct have_data; auto; rewrite (proj2 U) in H by auto; discriminate).
      destruct (Z.eqb_spec block_size 0); [left; now eexists|].
      destruct (Z.ltb_spec block_size 0); [right; right; eexists; split; [reflexivity|split; [now left|reflexivity]]|].
      destruct (Nat.eqb_spec (nrows cov) 0); [right; right; eexists; split; [reflexivity|split; [right; split; assumption|reflexivity]]|].
      left; now eexists. }
  4:{ right; left. rewrite HT by (destruct have_truth; auto; rewrite (proj2 U) in H by auto; discriminate). split; reflexivity. }
  all: left; rewrite HX by (destruct have_data; auto; rewrite (proj2 U) in H by auto; discriminate); now eexists.
Qed.
(** The exceptions are real. *)
Theorem C61_exceptions_occur (N : Num) (L : LinAlg N) cov :
  assess L FrobeniusToTruth cov None None = Ok nnan /\ assess L (BlockPseudoLikelihood (-1)) cov None None = Ok n0.
Proof. split; reflexivity. Qed.

(** ** C62 *)
Definition fnorm (p q : nat) (A : rmat) : R := sqrt (rsum p (fun i => rsum q (fun j => A i j * A i j))).
Lemma fnorm2_zero p q A : rsum p (fun i => rsum q (fun j => A i j * A i j)) = 0 -> meq p q A (fun _ _ => 0).
Proof.
  intros H i j Hi Hj.
  assert (E : rsum q (fun j => A i j * A i j) = 0).
  { apply (rsum_pos_zero p (fun i => rsum q (fun j => A i j * A i j))); auto. intros. apply rsum_nonneg. intros. apply Rle_0_sqr. }
  pose proof (rsum_pos_zero q (fun j => A i j * A i j) ltac:(intros; apply Rle_0_sqr) E j Hj) as Z. cbn in Z. nra.
Qed.
(** FrobeniusToTruth is minus the relative Frobenius distance: never positive, and 0 exactly at the truth. *)
Theorem C62_frobenius L p q A T X :
  (exists i j, (i < p)%nat /\ (j < q)%nat /\ T i j <> 0) ->
  exists s, assess L FrobeniusToTruth (fm p q A) X (Some (fm p q T)) = Ok (Fin s) /\
    s = - (fnorm p q (fun i j => A i j - T i j) / fnorm p q T) /\ s <= 0 /\ (s = 0 <-> meq p q A T).
Proof.
  intros (i & j & Hi & Hj & NZ). eexists. cbn [assess frobenius]. rewrite msub_fin. cbn [bind]. rewrite !mnorm_fin.
  fold (fnorm p q (fun i j => A i j - T i j)) (fnorm p q T).
  assert (NN : forall B, 0 <= rsum p (fun i => rsum q (fun j => B i j * B i j))) by (intros; apply rsum_nonneg; intros; apply rsum_nonneg; intros; apply Rle_0_sqr).
  assert (P : 0 < fnorm p q T).
  { apply sqrt_lt_R0. destruct (NN T) as [?|E]; auto. exfalso. apply NZ. now apply (fnorm2_zero p q T). }
  rewrite div_fin, opp_fin by lra. split; [reflexivity|]. split; [reflexivity|]. pose proof (sqrt_pos (rsum p (fun i => rsum q (fun j => (A i j - T i j) * (A i j - T i j))))) as Q.
  fold (fnorm p q (fun i j => A i j - T i j)) in Q. pose proof (Rinv_0_lt_compat _ P) as P'. split; [unfold Rdiv; nra|]. split.
  - intros E. assert (Z : fnorm p q (fun i j => A i j - T i j) = 0).
    { apply Ropp_eq_0_compat in E. rewrite Ropp_involutive in E. apply (Rmult_eq_reg_r (/ fnorm p q T)); [|lra]. unfold Rdiv in E. lra. }
    apply sqrt_eq_0 in Z; [|apply (NN (fun i j => A i j - T i j))].
    apply (fnorm2_zero p q (fun i j => A i j - T i j)) in Z. intros i' j' Hi' Hj'. specialize (Z i' j' Hi' Hj'). cbn in Z. lra.
  - intros E. unfold fnorm at 1. rewrite rsum_zero, sqrt_0; [unfold Rdiv; ring|]. intros. apply rsum_zero. intros. rewrite E by auto. ring.
Qed.

Lemma lmean_nonneg {A} (f : A -> R) l : (forall a, In a l -> 0 <= f a) -> 0 <= lmean (map f l).
Proof.
  intros H. unfold lmean. destruct l as [|a l]; [cbn; lra|]. apply Rmult_le_pos.
  - apply lsum_nonneg. apply Forall_forall. intros x Hx. apply in_map_iff in Hx. destruct Hx as (y & <- & Hy). auto.
  - apply Rlt_le, Rinv_0_lt_compat, lt_0_INR. cbn. lia.
Qed.
Lemma lmean_le {A} (f g : A -> R) l : (forall a, In a l -> f a <= g a) -> lmean (map f l) <= lmean (map g l).
Proof.
  intros H. assert (0 <= lmean (map (fun a => g a + -1 * f a) l)) by (apply lmean_nonneg; intros a Ha; specialize (H a Ha); lra).
  rewrite lmean_plus, lmean_scal in H0. lra.
Qed.
(** dispersion of |x_i - x_j| around its sample mean: the part of the score no covariance can influence *)
Definition variogram_noise (xs : list obs) : rmat := fun i j =>
  lmean (map (fun x => (Rabs (x i - x j) - sample_variogram xs i j) * (Rabs (x i - x j) - sample_variogram xs i j)) xs).
Lemma lmean_decomp {A} (f : A -> R) c l : l <> [] ->
  lmean (map (fun a => (f a - c) * (f a - c)) l) =
  lmean (map (fun a => (f a - lmean (map f l)) * (f a - lmean (map f l))) l) + (lmean (map f l) - c) * (lmean (map f l) - c).
Proof.
  intros Hl. set (m := lmean (map f l)).
  rewrite (lmean_ext _ (fun a => (f a - m) * (f a - m) + (2 * (m - c) * f a + (c * c - m * m)))) by (intros; ring).
  rewrite lmean_plus. f_equal. rewrite lmean_plus, lmean_scal, lmean_const by auto. fold m. ring.
Qed.
(** VariogramScore is never positive; up to the sampling noise it is minus the squared distance between the
    variogram of the data and the one the covariance implies, so it is maximal exactly where the two agree. *)
Theorem C62_variogram L p A xs T : lawful L -> (1 <= p)%nat -> xs <> [] ->
  exists s, assess L VariogramScore (fm p p A) (Some (map (fv p) xs)) T = Ok (Fin s) /\
    s = - rsum p (fun i => rsum p (fun j => variogram_noise xs i j +
          (sample_variogram xs i j - gauss_variogram (symm A) i j) * (sample_variogram xs i j - gauss_variogram (symm A) i j))) /\
    s <= 0 /\ s <= - rsum p (fun i => rsum p (fun j => variogram_noise xs i j)) /\
    (s = - rsum p (fun i => rsum p (fun j => variogram_noise xs i j)) <-> meq p p (gauss_variogram (symm A)) (sample_variogram xs)).
Proof.
  intros HL Hp Hx. eexists. cbn [assess]. rewrite (variogram_fin L HL p A xs Hp Hx). split; [reflexivity|].
  set (G := gauss_variogram (symm A)). set (V := sample_variogram xs).
  assert (E : lmean (map (fun x : nat -> R => rsum p (fun i => rsum p (fun j => (Rabs (x i - x j) - G i j) * (Rabs (x i - x j) - G i j)))) xs) =
    rsum p (fun i => rsum p (fun j => variogram_noise xs i j + (V i j - G i j) * (V i j - G i j)))).
  { rewrite lmean_rsum. apply rsum_ext. intros i _. rewrite lmean_rsum. apply rsum_ext. intros j _. now apply lmean_decomp. }
  rewrite E. split; [reflexivity|].
  assert (N1 : forall i j, 0 <= variogram_noise xs i j) by (intros; apply lmean_nonneg; intros; apply Rle_0_sqr).
  assert (S1 : rsum p (fun i => rsum p (fun j => variogram_noise xs i j + (V i j - G i j) * (V i j - G i j))) =
    rsum p (fun i => rsum p (fun j => variogram_noise xs i j)) + rsum p (fun i => rsum p (fun j => (V i j - G i j) * (V i j - G i j)))).
  { rewrite <- rsum_plus. apply rsum_ext. intros. apply rsum_plus. }
  assert (N2 : 0 <= rsum p (fun i => rsum p (fun j => variogram_noise xs i j))) by (apply rsum_nonneg; intros; apply rsum_nonneg; auto).
  assert (N3 : 0 <= rsum p (fun i => rsum p (fun j => (V i j - G i j) * (V i j - G i j)))) by (apply rsum_nonneg; intros; apply rsum_nonneg; intros; apply Rle_0_sqr).
  rewrite S1. split; [lra|]. split; [lra|]. split.
  - intros H. assert (Z : rsum p (fun i => rsum p (fun j => (V i j - G i j) * (V i j - G i j))) = 0) by lra.
    apply (fnorm2_zero p p (fun i j => V i j - G i j)) in Z. intros i j Hi Hj. specialize (Z i j Hi Hj). cbn in Z. lra.
  - intros H. rewrite (rsum_zero p (fun i => rsum p (fun j => (V i j - G i j) * (V i j - G i j)))); [lra|].
    intros. apply rsum_zero. intros. rewrite H by auto. ring.
Qed.
(** Degenerate truth: a zero true_cov turns the score into nan (exact estimate) or -inf. *)
Theorem C62_zero_truth L p q A X :
  assess L FrobeniusToTruth (fm p q A) X (Some (fm p q (fun _ _ => 0))) = Ok (if Rltb 0 (fnorm p q A) then NInf else NaN).
Proof.
  cbn [assess frobenius]. rewrite msub_fin. cbn [bind]. rewrite !mnorm_fin.
  rewrite (rsum_zero p (fun i => rsum q (fun j => 0 * 0))) by (intros; apply rsum_zero; intros; ring). rewrite sqrt_0. f_equal.
  replace (sqrt (rsum p (fun i => rsum q (fun j => (A i j - 0) * (A i j - 0))))) with (fnorm p q A)
    by (unfold fnorm; f_equal; apply rsum_ext; intros; apply rsum_ext; intros; ring).
  pose proof (sqrt_pos (rsum p (fun i => rsum q (fun j => A i j * A i j)))) as Q. fold (fnorm p q A) in Q.
  destruct (Rltb_spec 0 (fnorm p q A)) as [H|H]; cbn; unfold Reqb; destruct (Req_EM_T 0 0); try lra.
  - destruct (Req_EM_T (fnorm p q A) 0); [lra|]. rewrite Rltb_true by lra. reflexivity.
  - rewrite !Rltb_false by lra. reflexivity.
Qed.

(** ** C63 *)
(** GMVVariance is minus the second moment of the portfolio with weights cov^-1 1 / 1'cov^-1 1 (they sum to 1);
    never positive. *)
Theorem C63_gmv_is_portfolio_second_moment L p A xs T : lawful L -> (1 <= p)%nat -> xs <> [] -> pd p A ->
  exists B, inverse p A B /\ rsum p (gmv_weights p B) = 1 /\
    assess L GMVVariance (fm p p A) (Some (map (fv p) xs)) T =
      Ok (Fin (- lmean (map (fun x => rdot p x (gmv_weights p B) * rdot p x (gmv_weights p B)) xs))) /\
    - lmean (map (fun x => rdot p x (gmv_weights p B) * rdot p x (gmv_weights p B)) xs) <= 0.
Proof.
  intros HL Hp Hx HA. pose proof (tinv_inverse L HL p A Hp (proj1 HA) (pd_invertible p A HA)) as HI.
  pose proof (sum_pd p _ Hp (inverse_pd p A _ HA HI)) as HS. exists (tinv L p A). split; auto. split.
  - unfold gmv_weights. rewrite rsum_div. field. lra.
  - split; [cbn [assess]; apply gmv_fin; auto; [apply HA|lra]|].
    pose proof (lmean_nonneg (fun x => rdot p x (gmv_weights p (tinv L p A)) * rdot p x (gmv_weights p (tinv L p A))) xs ltac:(intros; apply Rle_0_sqr)). lra.
Qed.
Lemma penrose_scale p A B c : c <> 0 -> penrose p A B -> penrose p (fun i j => c * A i j) (fun i j => / c * B i j).
Proof.
  intros Hc (H1 & H2 & H3 & H4).
  assert (EL : forall X Y i j, rmul p (fun i j => c * X i j) Y i j = c * rmul p X Y i j).
  { intros. unfold rmul. rewrite <- rsum_scal. apply rsum_ext. intros. ring. }
  assert (EL' : forall X Y i j, rmul p (fun i j => / c * X i j) Y i j = / c * rmul p X Y i j).
  { intros. unfold rmul. rewrite <- rsum_scal. apply rsum_ext. intros. ring. }
  assert (ER : forall X Y i j, rmul p X (fun i j => c * Y i j) i j = c * rmul p X Y i j).
  { intros. unfold rmul. rewrite <- rsum_scal. apply rsum_ext. intros. ring. }
  assert (ER' : forall X Y i j, rmul p X (fun i j => / c * Y i j) i j = / c * rmul p X Y i j).
  { intros. unfold rmul. rewrite <- rsum_scal. apply rsum_ext. intros. ring. }
  assert (E1 : meq p p (rmul p (fun i j => c * A i j) (fun i j => / c * B i j)) (rmul p A B)).
  { intros i j _ _. rewrite EL, ER'. field. auto. }
  assert (E2 : meq p p (rmul p (fun i j => / c * B i j) (fun i j => c * A i j)) (rmul p B A)).
  { intros i j _ _. rewrite EL', ER. field. auto. }
  split; [|split; [|split]].
  - eapply meq_trans; [apply rmul_ext; [apply meq_refl|exact E2]|]. intros i j Hi Hj. rewrite EL. now rewrite H1.
  - eapply meq_trans; [apply rmul_ext; [apply meq_refl|exact E1]|]. intros i j Hi Hj. rewrite EL'. now rewrite H2.
  - apply (sym_ext p _ _ (meq_sym _ _ _ _ E1)). exact H3.
  - apply (sym_ext p _ _ (meq_sym _ _ _ _ E2)). exact H4.
Qed.
(** The score does not change when the covariance is multiplied by a non-zero constant. *)
Theorem C63_gmv_scale_invariant L p A xs T c : lawful L -> (1 <= p)%nat -> xs <> [] -> pd p A -> c <> 0 ->
  assess L GMVVariance (fm p p (fun i j => c * A i j)) (Some (map (fv p) xs)) T =
  assess L GMVVariance (fm p p A) (Some (map (fv p) xs)) T.
Proof.
  intros HL Hp Hx HA Hc. pose proof (tinv_inverse L HL p A Hp (proj1 HA) (pd_invertible p A HA)) as HI.
  pose proof (sum_pd p _ Hp (inverse_pd p A _ HA HI)) as HS.
  assert (SC : sym p (fun i j => c * A i j)) by (intros i j Hi Hj; now rewrite (proj1 HA i j Hi Hj)).
  assert (E : meq p p (tinv L p (fun i j => c * A i j)) (fun i j => / c * tinv L p A i j)).
  { apply (penrose_unique p (fun i j => c * A i j)); [now apply tinv_ok|]. apply penrose_scale; auto. apply tinv_ok; auto. apply HA. }
  set (B := tinv L p A) in *. set (B' := tinv L p (fun i j => c * A i j)) in *.
  assert (ES : rsum p (fun i => rsum p (fun j => B' i j)) = / c * rsum p (fun i => rsum p (fun j => B i j))).
  { rewrite <- rsum_scal. apply rsum_ext. intros i Hi. rewrite <- rsum_scal. apply rsum_ext. intros j Hj. apply E; auto. }
  pose proof (Rinv_neq_0_compat c Hc) as Hc'.
  cbn [assess]. rewrite (gmv_fin L HL p A xs Hp (proj1 HA) Hx) by (fold B; lra).
  rewrite (gmv_fin L HL p _ xs Hp SC Hx) by (fold B'; rewrite ES; apply Rmult_integral_contrapositive; lra). fold B B'.
  assert (EW : forall i, (i < p)%nat -> gmv_weights p B' i = gmv_weights p B i).
  { intros i Hi. unfold gmv_weights. rewrite ES. assert (ER : rsum p (fun j => B' i j) = / c * rsum p (fun j => B i j)) by (rewrite <- rsum_scal; apply rsum_ext; intros; apply E; auto). rewrite ER. field. lra. }
  do 3 f_equal. apply lmean_ext. intros x _. f_equal; apply rsum_ext; intros i Hi; now rewrite EW.
Qed.
(** The best possible score is -1 / (1'S^-1 1), S the second moment of the held-out rows; S itself attains it. *)
Theorem C63_gmv_best_at_second_moment L p S A xs T : lawful L -> (1 <= p)%nat -> xs <> [] ->
  meq p p S (second_moment zero_mean xs) -> pd p S -> pd p A ->
  exists s best Si, inverse p S Si /\ best = - / rsum p (fun i => rsum p (fun j => Si i j)) /\ s <= best /\
    assess L GMVVariance (fm p p A) (Some (map (fv p) xs)) T = Ok (Fin s) /\
    assess L GMVVariance (fm p p S) (Some (map (fv p) xs)) T = Ok (Fin best).
Proof.
  intros HL Hp Hx ES HS HA.
  destruct (C63_gmv_is_portfolio_second_moment L p A xs T HL Hp Hx HA) as (B & IB & SB & EB & _).
  destruct (C63_gmv_is_portfolio_second_moment L p S xs T HL Hp Hx HS) as (Si & IS & SS & ESc & _).
  rewrite lmean_sq in EB, ESc. rewrite <- (qf_meq p _ _ _ ES) in EB. rewrite <- (qf_meq p _ _ _ ES) in ESc.
  pose proof (sum_pd p _ Hp (inverse_pd p S _ HS IS)) as PS. set (t := rsum p (fun i => rsum p (fun j => Si i j))) in *.
  (* S w* = 1 / t *)
  assert (AP : forall i, (i < p)%nat -> rapp p S (gmv_weights p Si) i = / t).
  { intros i Hi. unfold rapp, gmv_weights. fold t.
    rewrite (rsum_ext p _ (fun j => (S i j * rsum p (fun k => Si j k)) / t)) by (intros; unfold Rdiv; ring). rewrite rsum_div.
    replace (rsum p (fun j => S i j * rsum p (fun k => Si j k))) with (rsum p (fun k => rmul p S Si i k)).
    - rewrite (rsum_ext p _ (fun k => rI i k)) by (intros; now apply (proj1 IS)). unfold rI.
      rewrite (rsum_delta' p i (fun _ => 1)) by auto. unfold Rdiv. ring.
    - unfold rmul. rewrite rsum_swap. apply rsum_ext. intros j _. apply rsum_scal. }
  assert (BW : forall w, bil p S w (gmv_weights p Si) = rsum p w / t).
  { intros w. unfold bil, rdot. rewrite (rsum_ext p _ (fun i => w i / t)) by (intros; rewrite AP by auto; reflexivity). apply rsum_div. }
  assert (QB : qf p S (gmv_weights p Si) = / t) by (rewrite <- bil_qf, BW, SS; unfold Rdiv; ring).
  exists (- qf p S (gmv_weights p B)), (- / t), Si. split; auto. split; [reflexivity|]. split.
  - pose proof (bil_cauchy p S (gmv_weights p B) (gmv_weights p Si) (pd_psd p S HS)) as C. rewrite BW, SB, QB in C.
    unfold Rdiv in C. rewrite Rmult_1_l in C. pose proof (Rinv_0_lt_compat t PS) as I. apply Ropp_le_contravar.
    apply (Rmult_le_reg_r (/ t)); auto.
  - split; [exact EB|]. now rewrite ESc, QB.
Qed.

(** ** C64 *)
Lemma accum_fin f g l t : (forall s, In s l -> f s = Ok (Fin (g s))) -> accum (N := NumX) f l (Fin t) = Ok (Fin (t + lsum (map g l))).
Proof.
  revert t. induction l as [|s l IH]; intros t H; cbn [accum map].
  - unfold lsum. cbn. do 2 f_equal. lra.
  - rewrite H by now left. cbn [bind]. rewrite add_fin, IH by (intros; apply H; now right). do 2 f_equal. unfold lsum. cbn. fold (lsum (map g l)). lra.
Qed.
Lemma lsum_seq g n a : lsum (map g (seq a n)) = rsum n (fun k => g (a + k)%nat).
Proof.
  revert a. induction n as [|n IH]; intros a; [reflexivity|]. cbn [seq map]. rewrite rsum_S_first, Nat.add_0_r.
  unfold lsum. cbn. fold (lsum (map g (seq (S a) n))). rewrite IH. f_equal. apply rsum_ext. intros. f_equal. lia.
Qed.
Definition nblocks (p bs : nat) : nat := ((p + bs - 1) / bs)%nat.
Definition bsize (p bs k : nat) : nat := Nat.min bs (p - k * bs).
Lemma nblocks_spec p bs : (1 <= p)%nat -> (1 <= bs)%nat -> (1 <= nblocks p bs)%nat /\ ((nblocks p bs - 1) * bs < p <= nblocks p bs * bs)%nat.
Proof.
  intros Hp Hb. unfold nblocks. pose proof (Nat.div_mod (p + bs - 1) bs ltac:(lia)) as D. pose proof (Nat.mod_upper_bound (p + bs - 1) bs ltac:(lia)) as U.
  set (q := ((p + bs - 1) / bs)%nat) in *. assert (1 <= q)%nat by (apply Nat.div_le_lower_bound; lia). split; auto. nia.
Qed.
Lemma sub_pd p s n A : (s + n <= p)%nat -> pd p A -> pd n (block_at s A).
Proof. intros H P. apply (pd_block s n). apply (pd_lead (s + n) (p - (s + n))). now replace (s + n + (p - (s + n)))%nat with p by lia. Qed.
(** BlockPseudoLikelihood is the sum, over the consecutive blocks of block_size variables (the last one may be
    smaller), of the block's own mean log-likelihood; every variable is in exactly one block. *)
Theorem C64_sum_over_blocks L p bs A xs T : lawful L -> (1 <= p)%nat -> (1 <= bs)%nat -> xs <> [] -> pd p A ->
  exists n s, ((n - 1) * bs < p <= n * bs)%nat /\
    (forall i, (i < p)%nat -> exists! k, (k < n)%nat /\ (k * bs <= i < k * bs + Nat.min bs (p - k * bs))%nat) /\
    (forall k, (k < n)%nat -> exists B, inverse (Nat.min bs (p - k * bs)) (block_at (k * bs) A) B /\
       s k = mean_loglik (Nat.min bs (p - k * bs)) (block_at (k * bs) A) B (map (coords_from (k * bs)) xs)) /\
    assess L (BlockPseudoLikelihood (Z.of_nat bs)) (fm p p A) (Some (map (fv p) xs)) T = Ok (Fin (rsum n s)).
Proof.
  intros HL Hp Hb Hx HA. destruct (nblocks_spec p bs Hp Hb) as [N1 N2]. set (n := nblocks p bs) in *.
  assert (SZ : forall k, (k < n)%nat -> (1 <= bsize p bs k)%nat /\ (k * bs + bsize p bs k <= p)%nat /\ (k * bs + bsize p bs k = Nat.min (k * bs + bs) p)%nat).
  { intros k Hk. assert (k * bs <= (n - 1) * bs)%nat by (apply Nat.mul_le_mono_r; lia). unfold bsize. lia. }
  exists n, (fun k => mean_loglik (bsize p bs k) (block_at (k * bs) A) (tinv L (bsize p bs k) (block_at (k * bs) A)) (map (coords_from (k * bs)) xs)).
  split; auto. split; [|split].
  - intros i Hi. pose proof (Nat.div_mod i bs ltac:(lia)) as D. pose proof (Nat.mod_upper_bound i bs ltac:(lia)) as U. exists (i / bs)%nat. split.
    + split; [|lia]. apply Nat.div_lt_upper_bound; lia.
    + intros k [K1 K2]. symmetry. apply (Nat.div_unique i bs k (i - k * bs)); lia.
  - intros k Hk. destruct (SZ k Hk) as (S1 & S2 & _). pose proof (sub_pd p (k * bs) _ A S2 HA) as PK.
    eexists. split; [|reflexivity]. apply tinv_inverse; auto; [apply PK|now apply pd_invertible].
  - cbn [assess]. unfold block_pseudo. rewrite fm_nrows. destruct (Z.eqb_spec (Z.of_nat bs) 0); [lia|]. destruct (Z.ltb_spec (Z.of_nat bs) 0); [lia|].
    rewrite Nat2Z.id. unfold starts. fold (nblocks p bs). fold n. rewrite n0_fin.
    rewrite (accum_fin _ (fun s => mean_loglik (Nat.min (s + bs) p - s) (block_at s A) (tinv L (Nat.min (s + bs) p - s) (block_at s A)) (map (coords_from s) xs))).
    + rewrite map_map, lsum_seq, Rplus_0_l. do 2 f_equal. apply rsum_ext. intros k Hk. rewrite Nat.add_0_l. destruct (SZ k Hk) as (S1 & S2 & S3).
      now replace (Nat.min (k * bs + bs) p - k * bs)%nat with (bsize p bs k) by lia.
    + intros s Hs. apply in_map_iff in Hs. destruct Hs as (k & <- & Hk). apply in_seq in Hk. destruct (SZ k ltac:(lia)) as (S1 & S2 & S3).
      rewrite mslice_fin by lia. set (e := Nat.min (k * bs + bs) p) in *. fold (block_at (k * bs) A).
      assert (EX : map (slice (k * bs) e) (map (fv p) xs) = map (fv (e - k * bs)) (map (coords_from (k * bs)) xs)).
      { rewrite !map_map. apply map_ext. intros x. rewrite slice_fin by lia. reflexivity. }
      etransitivity; [exact (f_equal (gaussian_loglik L _) EX)|]. apply loglik_fin; auto; [lia|apply (sub_pd p); [lia|auto]|destruct xs; [congruence|discriminate]].
Qed.
(** One block for all the variables recovers the full likelihood. *)
Theorem C64_one_block L p bs A xs T : lawful L -> (1 <= p)%nat -> (p <= bs)%nat -> xs <> [] -> pd p A ->
  assess L (BlockPseudoLikelihood (Z.of_nat bs)) (fm p p A) (Some (map (fv p) xs)) T = assess L LogLikelihood (fm p p A) (Some (map (fv p) xs)) T.
Proof.
  intros HL Hp Hb Hx HA. destruct (C64_sum_over_blocks L p bs A xs T HL Hp ltac:(lia) Hx HA) as (n & s & N & _ & HS & ->).
  assert (n = 1)%nat by nia. subst n. cbn [assess]. rewrite (loglik_fin L HL p A xs) by auto. do 2 f_equal. cbn [rsum]. rewrite Rplus_0_l.
  destruct (HS O ltac:(lia)) as (B & IB & ->). rewrite Nat.mul_0_l, Nat.sub_0_r, Nat.min_r in * by lia.
  rewrite (map_ext_in (coords_from 0) (fun x => x)) by (intros; reflexivity). rewrite map_id.
  change (lmean (map (gauss_logpdf p A (tinv L p A) (fun _ => 0)) xs)) with (mean_loglik p A (tinv L p A) xs).
  apply loglik_ext; [apply meq_refl|]. eapply inverse_unique; [exact IB|]. apply tinv_inverse; auto; [apply HA|now apply pd_invertible].
Qed.
(** It also equals the full likelihood of a covariance without correlations across the blocks. *)
Theorem C64_block_diagonal L p bs A xs T : lawful L -> (1 <= p)%nat -> (1 <= bs)%nat -> xs <> [] -> pd p A ->
  (forall i j, (i < p)%nat -> (j < p)%nat -> (i / bs <> j / bs)%nat -> A i j = 0) ->
  assess L (BlockPseudoLikelihood (Z.of_nat bs)) (fm p p A) (Some (map (fv p) xs)) T = assess L LogLikelihood (fm p p A) (Some (map (fv p) xs)) T.
Proof.
  intros HL Hp Hb Hx HA HD. destruct (C64_sum_over_blocks L p bs A xs T HL Hp Hb Hx HA) as (n & s & N & _ & HS & ->).
  cbn [assess]. rewrite (loglik_fin L HL p A xs) by auto. do 2 f_equal.
  change (lmean (map (gauss_logpdf p A (tinv L p A) (fun _ => 0)) xs)) with (mean_loglik p A (tinv L p A) xs).
  pose proof (tinv_inverse L HL p A Hp (proj1 HA) (pd_invertible p A HA)) as HI.
  set (st := fun b => Nat.min (b * bs) p). assert (En : st n = p) by (unfold st; lia).
  assert (ZB : forall b, (b < n)%nat -> st b = (b * bs)%nat /\ (st (S b) - st b = Nat.min bs (p - b * bs))%nat).
  { intros b Hb'. assert (b * bs <= (n - 1) * bs)%nat by (apply Nat.mul_le_mono_r; lia). unfold st. cbn [Nat.mul]. lia. }
  set (inv := fun b => tinv L (Nat.min bs (p - b * bs)) (block_at (b * bs) A)).
  assert (IV : forall b, (b < n)%nat -> inverse (Nat.min bs (p - b * bs)) (block_at (b * bs) A) (inv b)).
  { intros b Hb'. assert (b * bs <= (n - 1) * bs)%nat by (apply Nat.mul_le_mono_r; lia).
    pose proof (sub_pd p (b * bs) (Nat.min bs (p - b * bs)) A ltac:(lia) HA) as PK. apply tinv_inverse; auto; [lia|apply PK|now apply pd_invertible]. }
  transitivity (mean_loglik (st n) A (tinv L p A) xs); [|now rewrite En].
  rewrite (loglik_blocks n st A (tinv L p A) inv).
  - apply rsum_ext. intros b Hb'. destruct (ZB b Hb') as [Z1 Z2]. rewrite Z1 in *. rewrite Z2. destruct (HS b Hb') as (B & IB & ->).
    apply loglik_ext; [apply meq_refl|]. eapply inverse_unique; [exact IB|now apply IV].
  - unfold st. lia.
  - intros b Hb'. unfold st. cbn [Nat.mul]. lia.
  - intros b i j Hb' Hi Hj. rewrite En in Hj. assert (i < b * bs)%nat by (unfold st in Hi; lia). assert (b * bs <= j)%nat by (unfold st in Hj; lia).
    assert (i / bs < b)%nat by (apply Nat.div_lt_upper_bound; lia). assert (b <= j / bs)%nat by (apply Nat.div_le_lower_bound; lia).
    split; apply HD; lia.
  - now rewrite En.
  - now rewrite En.
  - intros b Hb'. destruct (ZB b Hb') as [Z1 Z2]. rewrite Z1 in *. rewrite Z2. now apply IV.
Qed.
(** A zero block size raises; a negative one scores everything 0.0 (range() is then empty). *)
Theorem C64_unusual_block_sizes (N : Num) (L : LinAlg N) bs cov X T :
  (bs = 0%Z -> assess L (BlockPseudoLikelihood bs) cov (Some X) T = Err ValueError) /\
  ((bs < 0)%Z -> assess L (BlockPseudoLikelihood bs) cov (Some X) T = Ok n0).
Proof.
  split; intros H; cbn [assess]; unfold block_pseudo; destruct (Z.eqb_spec bs 0); try lia; auto.
  destruct (Z.ltb_spec bs 0); [auto|lia].
Qed.

(** ** C65 *)
(** gamma = 1: the likelihood of make_pos_def(cov), whatever the interpolation and the number of blocks;
    that of cov itself when its eigenvalues are at least 1e-8. *)
Theorem C65_gamma_one L p nb interp A xs T : lawful L -> (1 <= p)%nat -> (1 <= nb)%Z -> 
  exists B, make_pos_def L (fm p p A) = Ok (fm p p B) /\
    assess L (SchurLikelihood (N := NumX) (Fin 1) nb interp) (fm p p A) (Some (map (fv p) xs)) T = assess L LogLikelihood (fm p p B) (Some (map (fv p) xs)) T /\
    (bounded_below p e8 A ->
     assess L (SchurLikelihood (N := NumX) (Fin 1) nb interp) (fm p p A) (Some (map (fv p) xs)) T = assess L LogLikelihood (fm p p A) (Some (map (fv p) xs)) T).
Proof.
  intros HL Hp Hn. exists (mpd L p A). split; [now apply mpd_ok|].
  assert (K : assess L (SchurLikelihood (N := NumX) (Fin 1) nb interp) (fm p p A) (Some (map (fv p) xs)) T = assess L LogLikelihood (fm p p (mpd L p A)) (Some (map (fv p) xs)) T).
  { cbn [assess]. destruct (string_dec interp "geodesic") as [->|Hi].
    - rewrite schur_lik_geodesic by auto. f_equal. apply fm_meq. rewrite (mpd_ext L p _ _ (gstep_1 L HL p _ A Hp)). now apply mpd_mpd.
    - rewrite schur_lik_linear by auto. f_equal. apply fm_meq. rewrite (mpd_ext L p _ A); [apply meq_refl|].
      intros i j _ _. unfold damped. destruct (Nat.eqb _ _); lra. }
  split; [exact K|]. intros HB. rewrite K. cbn [assess]. f_equal. apply fm_meq.
  assert (SS : meq p p (symm A) A) by (apply symm_id; apply HB).
  eapply meq_trans; [apply mpd_fix; auto|exact SS]. apply (bb_ext p e8 A); auto. now apply meq_sym.
Qed.
(** gamma = 0: the likelihood of make_pos_def of the block-diagonal part ... *)
Theorem C65_gamma_zero L p nb interp A xs T : lawful L -> (1 <= p)%nat -> (1 <= nb)%Z -> 
  exists B, make_pos_def L (fm p p (damped p (blocks nb p) 0 A)) = Ok (fm p p B) /\
    assess L (SchurLikelihood (N := NumX) (Fin 0) nb interp) (fm p p A) (Some (map (fv p) xs)) T = assess L LogLikelihood (fm p p B) (Some (map (fv p) xs)) T.
Proof.
  intros HL Hp Hn. exists (mpd L p (damped p (blocks nb p) 0 A)). split; [now apply mpd_ok|].
  cbn [assess]. destruct (string_dec interp "geodesic") as [->|Hi].
  - rewrite schur_lik_geodesic by auto. f_equal. apply fm_meq. rewrite (mpd_ext L p _ _ (gstep_0 L HL p _ A Hp)). now apply mpd_mpd.
  - now rewrite schur_lik_linear by auto.
Qed.
(** ... which is the sum over the blocks of the likelihood of make_pos_def of the block. *)
Theorem C65_gamma_zero_blocks L p nb interp A xs T : lawful L -> (1 <= p)%nat -> (1 <= nb)%Z -> xs <> [] -> sym p A ->
  let k := blocks nb p in let st := block_start p k in let sz b := (st (S b) - st b)%nat in
  exists s, 
    (forall b, (b < k)%nat -> exists B,
       make_pos_def L (fm (sz b) (sz b) (block_at (st b) A)) = Ok (fm (sz b) (sz b) B) /\
       assess L LogLikelihood (fm (sz b) (sz b) B) (Some (map (fv (sz b)) (map (coords_from (st b)) xs))) T = Ok (Fin (s b))) /\
    assess L (SchurLikelihood (N := NumX) (Fin 0) nb interp) (fm p p A) (Some (map (fv p) xs)) T = Ok (Fin (rsum k s)).
Proof.
  intros HL Hp Hn Hx HS k st sz. assert (Hk : (1 <= k <= p)%nat) by (unfold k; pose proof (blocks_range nb p Hp); lia).
  assert (K0 : k <> O) by lia.
  set (C := fun b => mpd L (sz b) (block_at (st b) A)).
  assert (SZ : forall b, (1 <= sz b)%nat) by (intros b; unfold sz, st; pose proof (start_lt p k b Hk); lia).
  assert (PC : forall b, pd (sz b) (C b)) by (intros b; apply (bb_pd _ e8); [apply e8_pos|now apply mpd_ok]).
  exists (fun b => mean_loglik (sz b) (C b) (tinv L (sz b) (C b)) (map (coords_from (st b)) xs)). split.
  - intros b Hb. exists (C b). split; [now apply mpd_ok|]. cbn [assess]. apply (loglik_fin L HL); auto. destruct xs; [congruence|discriminate].
  - destruct (C65_gamma_zero L p nb interp A xs T HL Hp Hn) as (B & EB & ->). fold k in EB.
    set (D := damped p k 0 A) in *.
    assert (BD : block_diagonal p k D).
    { intros i j Hi Hj N. unfold D, damped. destruct (Nat.eqb_spec (block_of p k i) (block_of p k j)); [contradiction|ring]. }
    assert (MB : meq p p B (mpd L p D)).
    { pose proof (proj1 (mpd_ok L HL p D Hp)) as E. rewrite EB in E. injection E as E. intros i j Hi Hj. now apply (fm_inj p p B _ i j E). }
    pose proof (mpd_ok L HL p D Hp) as [_ BB]. assert (PB : pd p B) by (apply (pd_ext p (mpd L p D)); [now apply meq_sym|apply (bb_pd p e8); [apply e8_pos|auto]]).
    cbn [assess]. rewrite (loglik_fin L HL p B xs) by auto. do 2 f_equal.
    change (lmean (map (gauss_logpdf p B (tinv L p B) (fun _ => 0)) xs)) with (mean_loglik p B (tinv L p B) xs).
    pose proof (tinv_inverse L HL p B Hp (proj1 PB) (pd_invertible p B PB)) as HI.
    assert (Ek : st k = p) by (apply start_k; auto).
    assert (BC : forall b, (b < k)%nat -> meq (sz b) (sz b) (block_at (st b) B) (C b)).
    { intros b Hb u v Hu Hv. pose proof (start_le_p p k (S b) K0 Hb) as LE. pose proof (start_lt p k b Hk) as LT.
      unfold block_at. rewrite MB by (unfold sz, st in *; lia). rewrite (mpd_blocks L HL p k D Hk BD) by (unfold sz, st in *; lia).
      pose proof (sub_assemble p k b (fun b => mpd L (size p k b) (sub p k b D)) Hb u v Hu Hv) as SA. unfold sub at 1 in SA. fold (st b) in SA. rewrite SA.
      unfold C. fold (sz b) in *. change (size p k b) with (sz b). rewrite (mpd_ext L (sz b) (sub p k b D) (block_at (st b) A)); [reflexivity|].
      intros u' v' Hu' Hv'. unfold sub, block_at, D, damped. fold (st b).
      rewrite (block_of_in p k b (st b + u')), (block_of_in p k b (st b + v')), Nat.eqb_refl by (unfold sz, st in *; lia). reflexivity. }
    transitivity (mean_loglik (st k) B (tinv L p B) xs); [now rewrite Ek|].
    rewrite (loglik_blocks k st B (tinv L p B) (fun b => tinv L (sz b) (C b))).
    + apply rsum_ext. intros b Hb. fold (sz b). apply loglik_ext; [now apply BC|apply meq_refl].
    + apply start_0.
    + intros b Hb. apply start_mono. lia.
    + intros b i j Hb Hi Hj. rewrite Ek in Hj.
      assert (N : block_of p k i <> block_of p k j).
      { destruct (block_of_spec p k i K0 ltac:(lia)) as [I1 I2]. destruct (block_of_spec p k j K0 ltac:(lia)) as [J1 J2].
        intros E. rewrite E in I2.
        assert (block_of p k j < b)%nat. { destruct (le_lt_dec b (block_of p k j)) as [G|G]; auto. pose proof (start_mono p k _ _ G). unfold st in *. lia. }
        pose proof (start_mono p k (S (block_of p k j)) b ltac:(lia)). unfold st in *. lia. }
      pose proof (mpd_block_diagonal L HL p k D Hk BD) as MD. rewrite !MB by lia. split; apply MD; auto; lia.
    + now rewrite Ek.
    + now rewrite Ek.
    + intros b Hb. fold (sz b). apply (inverse_ext _ (C b) _ (tinv L (sz b) (C b))); [now apply meq_sym, BC|apply meq_refl|].
      apply tinv_inverse; auto; [apply PC|apply pd_invertible, PC].
Qed.
(** Without at least one block there is nothing to score. *)
Theorem C65_no_blocks (N : Num) (L : LinAlg N) g nb interp cov X T : (nb <= 0)%Z ->
  assess L (SchurLikelihood g nb interp) cov (Some X) T = Err ValueError.
Proof.
  intros H. cbn [assess]. unfold schur_lik, block_id, split_sizes. destruct (Z.leb_spec (Z.min nb (Z.of_nat (nrows cov))) 0); [reflexivity|lia].
Qed.

(** ** C69 *)
(** LogLikelihood never scores a covariance above the second-moment matrix S of the held-out rows, and only S
    reaches that score; a singular covariance scores -inf. *)
Theorem C69_loglik_is_proper L p S A xs T : lawful L -> (1 <= p)%nat -> xs <> [] ->
  meq p p S (second_moment zero_mean xs) -> pd p S -> psd p A ->
  exists s best, assess L LogLikelihood (fm p p A) (Some (map (fv p) xs)) T = Ok s /\
    assess L LogLikelihood (fm p p S) (Some (map (fv p) xs)) T = Ok (Fin best) /\
    @nleb NumX s (Fin best) = true /\ (s = Fin best <-> meq p p A S) /\ (~ pd p A -> s = NInf).
Proof.
  intros HL Hp Hx ES HS HA. destruct (Req_dec (rdet p A) 0) as [Z|NZ].
  - assert (NP : ~ pd p A) by (now apply psd_det0). assert (NI : ~ invertible p A) by (rewrite rdet_invertible; lra).
    do 2 eexists. split; [apply (loglik_singular L HL p A xs Hp (proj1 HA) NI Hx)|]. split; [apply (loglik_fin L HL p S xs); auto|].
    split; [reflexivity|]. split; [|auto]. split; [discriminate|]. intros E. exfalso. apply NP. apply (pd_ext p S); auto. now apply meq_sym.
  - assert (PA : pd p A) by (apply psd_invertible_pd; auto; now apply rdet_invertible).
    do 2 eexists. split; [apply (loglik_fin L HL p A xs); auto|]. split; [apply (loglik_fin L HL p S xs); auto|].
    pose proof (tinv_inverse L HL p S Hp (proj1 HS) (pd_invertible p S HS)) as IS.
    pose proof (tinv_inverse L HL p A Hp (proj1 PA) (pd_invertible p A PA)) as IA.
    destruct (gauss_likelihood_max p A (tinv L p A) S (tinv L p S) zero_mean xs Hx ES HS IS PA IA) as [M1 M2].
    split; [cbn; now apply Rleb_true|]. split; [|contradiction]. split.
    + intros [= E]. now apply M2.
    + intros E. do 2 f_equal. rewrite (tinv_ext L p A S E). apply map_ext. intros x. unfold gauss_logpdf. now rewrite (rdet_ext E).
Qed.

(** ** C70 *)
(** SteinLoss is never positive and 0 exactly at the population covariance of the held-out rows; -inf for every
    estimate when that covariance is singular. *)
Theorem C70_stein L p A xs T : lawful L -> (1 <= p)%nat -> xs <> [] -> pd p A ->
  (pd p (pcov_of xs) -> exists s, assess L SteinLoss (fm p p A) (Some (map (fv p) xs)) T = Ok (Fin s) /\
     s <= 0 /\ (s = 0 <-> meq p p A (pcov_of xs))) /\
  (~ pd p (pcov_of xs) -> assess L SteinLoss (fm p p A) (Some (map (fv p) xs)) T = Ok NInf).
Proof.
  intros HL Hp Hx HA. split; intros HS; cbn [assess].
  - eexists. split; [apply (stein_fin L HL p A xs); auto|].
    pose proof (tinv_inverse L HL p A Hp (proj1 HA) (pd_invertible p A HA)) as IA. pose proof (inverse_pd p A _ HA IA) as PB.
    destruct (stein_ineq p (tinv L p A) (pcov_of xs) PB HS) as [S1 S2]. split; [lra|]. split.
    + intros E. assert (I : inverse p (pcov_of xs) (tinv L p A)) by (apply S2; lra).
      apply (inverse_unique p (tinv L p A)); split; [apply IA|apply IA|apply I|apply I].
    + intros E. assert (I : inverse p (pcov_of xs) (tinv L p A)) by (apply (inverse_ext p A (pcov_of xs) (tinv L p A) (tinv L p A)); auto using meq_refl).
      rewrite (rtrace_ext p (rmul p (tinv L p A) (pcov_of xs)) rI (proj2 I)), rtrace_I.
      rewrite Rmult_comm, (rdet_inverse I), ln_1. lra.
  - apply (stein_singular L HL); auto; [apply HA|]. apply psd_det0; auto. apply psd_pcov.
Qed.

(** ** Non-vacuity: the four rows (+-1, +-1): mean 0, second moment and covariance the identity *)
Definition pm (a b : R) : obs := fun i => match i with O => a | _ => b end.
Definition four_obs : list obs := [pm 1 1; pm 1 (-1); pm (-1) 1; pm (-1) (-1)].
Definition skew : rmat := fun i j => if Nat.eqb i j then 2 else 1.
Lemma four_second : meq 2 2 rI (second_moment zero_mean four_obs).
Proof. intros [|[|]] [|[|]] Hi Hj; try lia; unfold second_moment, lmean, lsum, zero_mean, four_obs, pm, rI; cbn; lra. Qed.
Lemma four_pcov : meq 2 2 rI (pcov_of four_obs).
Proof. intros [|[|]] [|[|]] Hi Hj; try lia; unfold pcov_of, mean_of, lsum, four_obs, pm, rI; cbn; lra. Qed.
Lemma pd_rI n : pd n rI.
Proof.
  split; [intros i j _ _; unfold rI; now rewrite Nat.eqb_sym|]. intros v H. pose proof (rdot_pos n v H) as P.
  replace (qf n rI v) with (rdot n v v); auto. rewrite qf_app. apply rdot_ext; [intros i _; reflexivity|]. intros i Hi. symmetry. now apply rapp_I.
Qed.
Lemma pd_skew : pd 2 skew.
Proof.
  split; [intros i j _ _; unfold skew; now rewrite Nat.eqb_sym|]. intros v (i & Hi & Hv). unfold qf, skew. cbn.
  assert (E : forall a b : R, 0 + (0 + a * 2 * a + a * 1 * b) + (0 + b * 1 * a + b * 2 * b) = a * a + b * b + (a + b) * (a + b)) by (intros; ring). rewrite E.
  pose proof (Rle_0_sqr (v O)). pose proof (Rle_0_sqr (v 1%nat)). pose proof (Rle_0_sqr (v O + v 1%nat)). unfold Rsqr in *.
  destruct i as [|[|]]; [| |lia].
  - assert (0 < v O * v O) by nra. lra.
  - assert (0 < v 1%nat * v 1%nat) by nra. lra.
Qed.
(** The hypotheses of C63, C64, C65, C69 and C70 hold for these rows; skew does worse than the identity. *)
Example C69_four_obs L : lawful L -> exists s best,
  assess L LogLikelihood (fm 2 2 skew) (Some (map (fv 2) four_obs)) None = Ok s /\
  assess L LogLikelihood (fm 2 2 rI) (Some (map (fv 2) four_obs)) None = Ok (Fin best) /\ s <> Fin best.
Proof.
  intros HL. destruct (C69_loglik_is_proper L 2 rI skew four_obs None HL ltac:(lia) ltac:(discriminate) four_second (pd_rI 2) (pd_psd 2 _ pd_skew))
    as (s & best & H1 & H2 & _ & H3 & _). exists s, best. split; auto. split; auto. intros E. apply H3 in E.
  specialize (E 0%nat 0%nat ltac:(lia) ltac:(lia)). unfold skew, rI in E. cbn in E. lra.
Qed.
Example C70_four_obs L : lawful L -> exists s,
  assess L SteinLoss (fm 2 2 skew) (Some (map (fv 2) four_obs)) None = Ok (Fin s) /\ s < 0 /\
  assess L SteinLoss (fm 2 2 rI) (Some (map (fv 2) four_obs)) None = Ok (Fin 0).
Proof.
  intros HL. assert (HS : pd 2 (pcov_of four_obs)) by (apply (pd_ext 2 rI); [apply four_pcov|apply pd_rI]).
  destruct (C70_stein L 2 skew four_obs None HL ltac:(lia) ltac:(discriminate) pd_skew) as [K _]. destruct (K HS) as (s & H1 & H2 & H3).
  destruct (C70_stein L 2 rI four_obs None HL ltac:(lia) ltac:(discriminate) (pd_rI 2)) as [K' _]. destruct (K' HS) as (s' & H1' & H2' & H3').
  exists s. split; auto. split; [|rewrite H1'; do 2 f_equal; apply H3', four_pcov].
  destruct H2 as [?|E]; auto. apply H3 in E. specialize (E 0%nat 0%nat ltac:(lia) ltac:(lia)). rewrite <- (four_pcov 0%nat 0%nat) in E by lia.
  unfold skew, rI in E. cbn in E. lra.
Qed.
Example C63_four_obs L : lawful L -> assess L GMVVariance (fm 2 2 rI) (Some (map (fv 2) four_obs)) None = Ok (Fin (- / 2)).
Proof.
  intros HL. destruct (C63_gmv_best_at_second_moment L 2 rI rI four_obs None HL ltac:(lia) ltac:(discriminate) four_second (pd_rI 2) (pd_rI 2))
    as (s & best & Si & IS & E & _ & _ & ->). rewrite E. do 4 f_equal.
  assert (U : meq 2 2 Si rI) by (eapply inverse_unique; [exact IS|]; split; apply mul_I_l).
  rewrite (rsum_ext 2 _ (fun i => rsum 2 (fun j => rI i j))) by (intros; apply rsum_ext; intros; now apply U). unfold rI. cbn. lra.
Qed.
Example C64_four_obs L : lawful L -> assess L (BlockPseudoLikelihood 1) (fm 2 2 rI) (Some (map (fv 2) four_obs)) None =
  assess L LogLikelihood (fm 2 2 rI) (Some (map (fv 2) four_obs)) None.
Proof.
  intros HL. apply (C64_block_diagonal L 2 1 rI four_obs None HL ltac:(lia) ltac:(lia) ltac:(discriminate) (pd_rI 2)).
  intros i j Hi Hj. rewrite !Nat.div_1_r. intros N. unfold rI. now apply Nat.eqb_neq in N as ->.
Qed.
Example C65_four_obs L : lawful L -> exists s, assess L (SchurLikelihood (N := NumX) (Fin 0) 4 "geodesic") (fm 2 2 skew) (Some (map (fv 2) four_obs)) None = Ok (Fin s).
Proof.
  intros HL. destruct (C65_gamma_zero_blocks L 2 4 "geodesic" skew four_obs None HL ltac:(lia) ltac:(lia) ltac:(discriminate) (proj1 pd_skew)) as (s & _ & H).
  eexists. exact H.
Qed.
Example C62_skew L : exists s, assess L FrobeniusToTruth (fm 2 2 skew) None (Some (fm 2 2 rI)) = Ok (Fin s) /\ s < 0.
Proof.
  destruct (C62_frobenius L 2 2 skew rI None) as (s & H1 & _ & H2 & H3); [exists 0%nat, 0%nat; repeat split; try lia; unfold rI; cbn; lra|].
  exists s. split; auto. destruct H2 as [?|E]; auto. apply H3 in E. specialize (E 0%nat 0%nat ltac:(lia) ltac:(lia)). unfold skew, rI in E. cbn in E. lra.
Qed.

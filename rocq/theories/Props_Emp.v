(** * C14-C21, C24, C25: EmpiricalCovariance and EwaCovariance on streams of finite numbers

    Vocabulary: RealSpec.v ([observes], [mean_of], [pcov_of], [ewa_mean], [ewa_cov]), RMat.v ([psd]).
    [fv p f] / [fm p q F] are the numpy vector / matrix with the (finite) entries [f i] / [F i j]. *)
From Coq Require Import Reals ZArith String List Lia Lra Arith Bool Permutation.
From Verif Require Import Num Numpy PyVal LinalgModel StateModel BaseModel Estimators
  Spec ListLemmas BaseProofs RMat Fin RealSpec RunFin EwaReal EmpFacts.
Import ListNotations.
Local Open Scope R_scope.

(** The estimator a user holds after constructing it with parameters [P] and calling
    partial_fit(rows), which must succeed. *)
Definition fitted_on {C : EstClass NumX} (P : c_P C) (rows : list (vec NumX)) (o : inst C) : Prop :=
  partial_fit (new P) (In2 rows) = (o, Ok tt).
Definition EWA (r : R) (diff : bool) : EwaP (N := NumX) := mkEwaP (Fin r : NumX) diff.

Lemma fitted_unique {C : EstClass NumX} (P : c_P C) rows o o' :
  fitted_on P rows o -> fitted_on P rows o' -> o = o'.
Proof. unfold fitted_on. congruence. Qed.

(** ** C14 *)
Theorem C14_empirical_is_population_covariance p diff rows xs :
  observes p diff rows xs -> xs <> [] ->
  exists o, fitted_on (C := Empirical) (mkEmpP diff) rows o /\
    n_samples_ o = Ok (length xs) /\
    location_ o = Ok (fv p (fun i => lsum (map (fun x => x i) xs) / INR (length xs))) /\
    covariance_ o = Ok (fm p p (fun i j =>
      lsum (map (fun x => (x i - mean_of xs i) * (x j - mean_of xs j)) xs) / INR (length xs))).
Proof.
  intros Ho Hx. destruct (Empirical_run p diff rows xs Ho Hx) as (o & E1 & E2 & E3 & E4 & _).
  exists o. auto.
Qed.

(** ** C15 *)
Lemma perm_observed p rows rows' xs : Permutation rows rows' -> observes p false rows xs ->
  exists xs', observes p false rows' xs' /\ Permutation xs xs'.
Proof.
  intros HP [Hr Ha]. cbn [absorbed] in Ha. subst rows.
  apply Permutation_sym in HP. destruct (Permutation_map_inv _ _ HP) as (xs' & -> & HP').
  exists xs'. split; [apply observes_plain|]. now apply Permutation_sym.
Qed.
Lemma mean_perm xs xs' i : Permutation xs xs' -> mean_of xs i = mean_of xs' i.
Proof.
  intros H. unfold mean_of. rewrite (Permutation_length H). f_equal.
  apply lsum_permutation, Permutation_map, H.
Qed.
Lemma pcov_perm xs xs' i j : Permutation xs xs' -> pcov_of xs i j = pcov_of xs' i j.
Proof.
  intros H. unfold pcov_of. rewrite (Permutation_length H), !(mean_perm xs xs') by auto. f_equal.
  apply lsum_permutation, Permutation_map, H.
Qed.
Theorem C15_empirical_ignores_order p rows rows' :
  rows_of_length p rows -> Forall finite_row rows -> rows <> [] -> Permutation rows rows' ->
  exists o o', fitted_on (C := Empirical) (mkEmpP false) rows o /\
    fitted_on (C := Empirical) (mkEmpP false) rows' o' /\
    location_ o = location_ o' /\ covariance_ o = covariance_ o' /\ correlation_ o = correlation_ o' /\
    forall L, precision_ L o = precision_ L o'.
Proof.
  intros Hr Hf Hne HP. destruct (finite_rows_observed p rows Hr Hf) as (xs & Ho).
  destruct (perm_observed p rows rows' xs HP Ho) as (xs' & Ho' & HP').
  assert (xs <> []).
  { intros ->. destruct Ho as [_ Ha]. cbn in Ha. now subst. }
  assert (xs' <> []).
  { intros ->. apply Permutation_sym, Permutation_nil in HP'. auto. }
  destruct (Empirical_run p false rows xs) as (o & E1 & _ & E3 & E4 & E5 & E6); auto.
  destruct (Empirical_run p false rows' xs') as (o' & F1 & _ & F3 & F4 & F5 & F6); auto.
  exists o, o'. split; [exact E1|]. split; [exact F1|].
  assert (EC : fm p p (pcov_of xs) = fm p p (pcov_of xs')) by (apply fm_ext; intros; now apply pcov_perm).
  rewrite E3, F3, E4, F4, E5, F5, EC. split; [f_equal; apply fv_ext; intros; now apply mean_perm|].
  split; [reflexivity|]. split; [reflexivity|]. intros L. now rewrite E6, F6, EC.
Qed.

(** ** C16 *)
Theorem C16_ewa_closed_form p r diff rows xs :
  r <> 0 -> observes p diff rows xs -> xs <> [] ->
  exists o, fitted_on (C := Ewa) (EWA r diff) rows o /\
    n_samples_ o = Ok (length xs) /\
    location_ o = Ok (fv p (ewa_mean r (burn_len r) xs)) /\
    covariance_ o = Ok (fm p p (ewa_cov r (burn_len r) xs)).
Proof.
  intros Hr Ho Hx. destruct (Ewa_run p r diff rows xs Hr Ho Hx) as (o & E1 & E2 & E3 & E4 & _).
  exists o. auto.
Qed.
(** The closed form, written out for a stream of [burn_len r + k] observations. *)
Theorem C16_ewa_closed_form_explicit p r rows bs ys :
  r <> 0 -> observes p false rows (bs ++ ys) -> length bs = burn_len r ->
  exists o, fitted_on (C := Ewa) (EWA r false) rows o /\
    (let k := length ys in
     let C0 := pcov_of bs in
     let m j i := (1 - r) ^ j * mean_of bs i + rsum j (fun l => r * (1 - r) ^ (j - 1 - l) * nthobs ys l i) in
     let d j i := nthobs ys j i - m j i in
     location_ o = Ok (fv p (m k)) /\
     covariance_ o = Ok (fm p p (fun a b =>
       (1 - r) ^ k * C0 a b + rsum k (fun j => r * (1 - r) ^ (k - 1 - j) * (d j a * d j b))))).
Proof.
  intros Hr Ho Hb. pose proof (burn_len_bounds r) as Hn.
  assert (Hx : (bs ++ ys)%list <> []) by (destruct bs; [simpl in Hb; lia|discriminate]).
  destruct (Ewa_run p r false rows _ Hr Ho Hx) as (o & E1 & _ & E3 & E4 & _).
  exists o. split; [exact E1|]. cbv zeta. rewrite E3, E4.
  assert (Eb : burn (burn_len r) (bs ++ ys) = bs)
    by (unfold burn; rewrite <- Hb, firstn_app, Nat.sub_diag, firstn_all, firstn_O; apply app_nil_r).
  assert (Ea : after (burn_len r) (bs ++ ys) = ys)
    by (unfold after; rewrite <- Hb, skipn_app, Nat.sub_diag, skipn_all; reflexivity).
  unfold ewa_mean, ewa_cov. rewrite Eb, Ea. split.
  - reflexivity.
  - f_equal. apply fm_ext. intros i j _ _. unfold ewc. f_equal. apply rsum_ext. intros k Hk.
    assert (L : length (firstn k ys) = k) by (rewrite firstn_length; lia).
    assert (K : forall c, innov r (mean_of bs) ys k c = nthobs ys k c -
       ((1 - r) ^ k * mean_of bs c + rsum k (fun l => r * (1 - r) ^ (k - 1 - l) * nthobs ys l c))).
    { intros c. unfold innov, ewm. rewrite L. do 2 f_equal. apply rsum_ext. intros l Hl. f_equal.
      assert (Q : nthobs (firstn k ys) l = nthobs ys l); [|now rewrite Q].
      unfold nthobs. transitivity (nth l (firstn k ys ++ skipn k ys) (fun _ : nat => 0)).
      - symmetry. apply app_nth1. lia.
      - now rewrite firstn_skipn. }
    now rewrite !K.
Qed.
Theorem C16_ewa_equals_empirical_during_burn_in p r diff rows xs :
  r <> 0 -> observes p diff rows xs -> xs <> [] -> (length xs <= burn_len r)%nat ->
  exists o o', fitted_on (C := Ewa) (EWA r diff) rows o /\
    fitted_on (C := Empirical) (mkEmpP diff) rows o' /\
    location_ o = location_ o' /\ covariance_ o = covariance_ o'.
Proof.
  intros Hr Ho Hx Hl.
  destruct (Ewa_run p r diff rows xs Hr Ho Hx) as (o & E1 & _ & E3 & E4 & _).
  destruct (Empirical_run p diff rows xs Ho Hx) as (o' & F1 & _ & F3 & F4 & _).
  exists o, o'. split; [exact E1|]. split; [exact F1|]. rewrite E3, E4, F3, F4.
  unfold ewa_mean, ewa_cov, burn, after. rewrite firstn_all2, skipn_all2 by lia. split; f_equal.
  - apply fv_ext. intros. apply ewm_nil.
  - apply fm_ext. intros. apply ewc_nil.
Qed.

(** ** C17 *)
Theorem C17_burn_in_is_clamped_ceiling r : 0 < r ->
  exists z n, IZR z - 1 < 1 / r <= IZR z /\
    ewa_burn_n (N := NumX) (Fin r) = Ok n /\ Z.of_nat n = Z.min 250 (Z.max 5 z).
Proof.
  intros Hr. exists (1 - up (- (1 / r)))%Z, (burn_len r). split; [apply ceil_spec|].
  split; [apply burn_fin; lra|]. unfold burn_len. rewrite Z2Nat.id by lia. reflexivity.
Qed.
Theorem C17_burn_in_bounds r n : r <> 0 -> ewa_burn_n (N := NumX) (Fin r) = Ok n -> (5 <= n <= 250)%nat.
Proof. intros Hr. rewrite burn_fin by auto. intros [= <-]. apply burn_len_bounds. Qed.
Theorem C17_burn_in_antitone r r' n n' : 0 < r -> r <= r' ->
  ewa_burn_n (N := NumX) (Fin r) = Ok n -> ewa_burn_n (N := NumX) (Fin r') = Ok n' -> (n' <= n)%nat.
Proof.
  intros Hr Hr'. rewrite !burn_fin by lra. intros [= <-] [= <-]. now apply burn_len_mono.
Qed.
Theorem C17_zero_rate_raises diff x :
  exists o, partial_fit (new (C := Ewa (N := NumX)) (EWA 0 diff)) (In2 [x; x]) = (o, Err ZeroDivisionError) /\
    covariance_ o = Err NotFittedError.
Proof.
  unfold partial_fit. cbn [as_rows fit_rows]. unfold fit_row. cbn [new i_params c_diff Ewa dict_class EWA ewa_diff].
  assert (A : forall y (o : inst (Ewa (N := NumX))), i_params o = EWA 0 diff -> i_state o = None ->
     exists o', absorb (C := Ewa (N := NumX)) o y = (o', Err ZeroDivisionError) /\ i_state o' = None).
  { intros y o Hp Hs. unfold absorb. rewrite Hs, Hp. cbn [c_init Ewa dict_class EWA ewa_r].
    unfold ewa_init, ewa_burn_n. rewrite n1_fin, py_div_zero. cbn [bind]. eexists. split; reflexivity. }
  assert (F : forall o : inst (Ewa (N := NumX)), i_state o = None -> covariance_ o = Err NotFittedError).
  { intros o Ho. unfold covariance_, fitted_state. now rewrite Ho. }
  destruct diff.
  - cbn [i_prev new]. cbn [i_params c_diff Ewa dict_class ewa_diff i_state i_nfeat i_prev].
    assert (V : exists d, vsub x x = Ok d).
    { unfold vsub. rewrite bc_eqlen by reflexivity. eauto. }
    destruct V as (d & ->).
    match goal with |- context [absorb ?o ?y] => destruct (A y o eq_refl eq_refl) as (o' & E & Hs); rewrite E end.
    exists o'. auto.
  - match goal with |- context [absorb ?o ?y] => destruct (A y o eq_refl eq_refl) as (o' & E & Hs); rewrite E end.
    exists o'. auto.
Qed.

(** ** C18 (Empirical and Ewa; the other classes are in their own files) *)
(** covariance_ returned a finite symmetric positive semidefinite p x p matrix *)
Definition psd_cov {C : EstClass NumX} (p : nat) (o : inst C) : Prop :=
  exists F, covariance_ o = Ok (fm p p F) /\ psd p F.
Theorem C18_empirical_psd p diff rows xs : observes p diff rows xs -> xs <> [] ->
  exists o, fitted_on (C := Empirical) (mkEmpP diff) rows o /\ psd_cov p o.
Proof.
  intros Ho Hx. destruct (Empirical_run p diff rows xs Ho Hx) as (o & E1 & _ & _ & E4 & _).
  exists o. split; [exact E1|]. eexists. split; [exact E4|]. apply psd_pcov.
Qed.
Theorem C18_ewa_psd p r diff rows xs : 0 < r <= 1 -> observes p diff rows xs -> xs <> [] ->
  exists o, fitted_on (C := Ewa) (EWA r diff) rows o /\ psd_cov p o.
Proof.
  intros Hr Ho Hx. destruct (Ewa_run p r diff rows xs) as (o & E1 & _ & _ & E4 & _); auto; [lra|].
  exists o. split; [exact E1|]. eexists. split; [exact E4|]. apply psd_ewa_cov. lra.
Qed.

(** ** C19 *)
Theorem C19_empirical_mean_in_range p diff rows xs i lo hi :
  observes p diff rows xs -> xs <> [] -> (i < p)%nat -> (forall x, In x xs -> lo <= x i <= hi) ->
  exists o m, fitted_on (C := Empirical) (mkEmpP diff) rows o /\ location_ o = Ok (fv p m) /\ lo <= m i <= hi.
Proof.
  intros Ho Hx Hi H. destruct (Empirical_run p diff rows xs Ho Hx) as (o & E1 & _ & E3 & _).
  exists o, (mean_of xs). split; [exact E1|]. split; [exact E3|]. now apply mean_range.
Qed.
Theorem C19_ewa_mean_in_range p r diff rows xs i lo hi : 0 < r <= 1 ->
  observes p diff rows xs -> xs <> [] -> (i < p)%nat -> (forall x, In x xs -> lo <= x i <= hi) ->
  exists o m, fitted_on (C := Ewa) (EWA r diff) rows o /\ location_ o = Ok (fv p m) /\ lo <= m i <= hi.
Proof.
  intros Hr Ho Hx Hi H. destruct (Ewa_run p r diff rows xs) as (o & E1 & _ & E3 & _); auto; [lra|].
  eexists o, _. split; [exact E1|]. split; [exact E3|].
  pose proof (burn_len_bounds r). apply ewa_mean_range; auto; [lra|lia].
Qed.

(** ** C20 *)
Lemma observes_ext p diff rows xs xs' : Forall2 (fun x y => forall i, x i = y i) xs xs' ->
  observes p diff rows xs -> observes p diff rows xs'.
Proof.
  intros H [Hr Ha]. split; [exact Hr|]. rewrite Ha. clear Ha. induction H; [reflexivity|].
  cbn [map]. f_equal; [apply fv_ext; auto|exact IHForall2].
Qed.
Definition seen (diff : bool) (ys : list obs) : list obs := if diff then rdiffs ys else ys.
Lemma observes_seen p diff ys : observes p diff (map (fv p) ys) (seen diff ys).
Proof. destruct diff; [apply observes_diff|apply observes_plain]. Qed.
Lemma seen_aff p q A b diff ys :
  observes q diff (map (fv q) (map (aff p A b) ys))
           (map (aff p A (if diff then fun _ => 0 else b)) (seen diff ys)).
Proof.
  destruct diff; [|apply observes_plain].
  apply (observes_ext q true _ _ _ (rdiffs_aff p A b ys)). apply observes_diff.
Qed.
(** The stream [ys] of p-vectors, and the stream of q-vectors A y + b. *)
Theorem C20_ewa_affine_equivariance p q r diff ys A b : r <> 0 -> seen diff ys <> [] ->
  exists o o' m C, fitted_on (C := Ewa) (EWA r diff) (map (fv p) ys) o /\
    fitted_on (C := Ewa) (EWA r diff) (map (fv q) (map (aff p A b) ys)) o' /\
    location_ o = Ok (fv p m) /\ covariance_ o = Ok (fm p p C) /\
    location_ o' = Ok (fv q (aff p A (if diff then fun _ => 0 else b) m)) /\
    covariance_ o' = Ok (fm q q (fun i j => rsum p (fun k => rsum p (fun l => A i k * C k l * A j l)))).
Proof.
  intros Hr Hx.
  destruct (Ewa_run p r diff _ _ Hr (observes_seen p diff ys) Hx) as (o & E1 & _ & E3 & E4 & _).
  destruct (Ewa_run q r diff _ _ Hr (seen_aff p q A b diff ys)) as (o' & F1 & _ & F3 & F4 & _).
  { destruct (seen diff ys); [congruence|discriminate]. }
  pose proof (burn_len_bounds r).
  exists o, o', (ewa_mean r (burn_len r) (seen diff ys)), (ewa_cov r (burn_len r) (seen diff ys)).
  split; [exact E1|]. split; [exact F1|]. split; [exact E3|]. split; [exact E4|].
  rewrite F3, F4. split; f_equal.
  - apply fv_ext. intros. apply ewa_mean_aff; auto; lia.
  - apply fm_ext. intros. apply (ewa_cov_aff r (burn_len r) p A); auto; lia.
Qed.
Theorem C20_empirical_affine_equivariance p q diff ys A b : seen diff ys <> [] ->
  exists o o' m C, fitted_on (C := Empirical) (mkEmpP diff) (map (fv p) ys) o /\
    fitted_on (C := Empirical) (mkEmpP diff) (map (fv q) (map (aff p A b) ys)) o' /\
    location_ o = Ok (fv p m) /\ covariance_ o = Ok (fm p p C) /\
    location_ o' = Ok (fv q (aff p A (if diff then fun _ => 0 else b) m)) /\
    covariance_ o' = Ok (fm q q (fun i j => rsum p (fun k => rsum p (fun l => A i k * C k l * A j l)))).
Proof.
  intros Hx.
  destruct (Empirical_run p diff _ _ (observes_seen p diff ys) Hx) as (o & E1 & _ & E3 & E4 & _).
  destruct (Empirical_run q diff _ _ (seen_aff p q A b diff ys)) as (o' & F1 & _ & F3 & F4 & _).
  { destruct (seen diff ys); [congruence|discriminate]. }
  exists o, o', (mean_of (seen diff ys)), (pcov_of (seen diff ys)).
  split; [exact E1|]. split; [exact F1|]. split; [exact E3|]. split; [exact E4|].
  rewrite F3, F4. split; f_equal.
  - apply fv_ext. intros. now apply mean_aff.
  - apply fm_ext. intros. apply (pcov_aff p A).
Qed.
(** Translating the stream does not change the covariance. *)
Corollary C20_ewa_translation_invariant p r diff ys b : r <> 0 -> seen diff ys <> [] ->
  exists o o' C, fitted_on (C := Ewa) (EWA r diff) (map (fv p) ys) o /\
    fitted_on (C := Ewa) (EWA r diff) (map (fv p) (map (fun (y : obs) i => y i + b i) ys)) o' /\
    covariance_ o = Ok (fm p p C) /\ covariance_ o' = Ok (fm p p C).
Proof.
  intros Hr Hx. destruct (C20_ewa_affine_equivariance p p r diff ys rI b Hr Hx) as (o & o' & m & C & E1 & F1 & _ & E4 & _ & F4).
  exists o, o', C. split; [exact E1|]. split; [|split; [exact E4|]].
  - replace (map (fv p) (map (fun (y : obs) i => y i + b i) ys)) with (map (fv p) (map (aff p rI b) ys)); auto.
    rewrite !map_map. apply map_ext. intros y. apply fv_ext. intros i Hi. unfold aff. f_equal.
    transitivity (rmul p rI (fun k _ => y k) i 0%nat); [reflexivity|]. now apply rmul_I_l.
  - rewrite F4. f_equal. apply fm_ext. intros i j Hi Hj.
    transitivity (rmul p rI (fun k j => rmul p C rI k j) i j).
    + unfold rmul. apply rsum_ext. intros k _. rewrite <- rsum_scal. apply rsum_ext. intros l _.
      unfold rI. rewrite (Nat.eqb_sym l j). ring.
    + rewrite rmul_I_l by auto. now apply rmul_I_r.
Qed.

(** ** C21 *)
(** Feeding only the coordinates s 0, ..., s (q-1) gives the corresponding sub-vector / sub-matrix. *)
Lemma seen_sel q (s : nat -> nat) diff ys :
  observes q diff (map (fv q) (map (fun (y : obs) i => y (s i)) ys)) (map (fun (y : obs) i => y (s i)) (seen diff ys)).
Proof.
  destruct diff; [|apply observes_plain].
  apply (observes_ext q true _ _ _ (rdiffs_map_lin (fun (y : obs) i => y (s i)) ys (fun _ _ _ => eq_refl))).
  apply observes_diff.
Qed.
Theorem C21_ewa_marginal p q r diff ys (s : nat -> nat) : r <> 0 -> seen diff ys <> [] ->
  (forall i, (i < q)%nat -> (s i < p)%nat) ->
  exists o o' m C, fitted_on (C := Ewa) (EWA r diff) (map (fv p) ys) o /\
    fitted_on (C := Ewa) (EWA r diff) (map (fv q) (map (fun (y : obs) i => y (s i)) ys)) o' /\
    location_ o = Ok (fv p m) /\ covariance_ o = Ok (fm p p C) /\
    location_ o' = Ok (fv q (fun i => m (s i))) /\
    covariance_ o' = Ok (fm q q (fun i j => C (s i) (s j))).
Proof.
  intros Hr Hx Hs.
  destruct (Ewa_run p r diff _ _ Hr (observes_seen p diff ys) Hx) as (o & E1 & _ & E3 & E4 & _).
  destruct (Ewa_run q r diff _ _ Hr (seen_sel q s diff ys)) as (o' & F1 & _ & F3 & F4 & _).
  { destruct (seen diff ys); [congruence|discriminate]. }
  destruct (ewa_ext_map r (burn_len r) (fun (y : obs) i => y (s i)) s (seen diff ys) (fun _ _ => eq_refl)) as [K1 K2].
  exists o, o', (ewa_mean r (burn_len r) (seen diff ys)), (ewa_cov r (burn_len r) (seen diff ys)).
  split; [exact E1|]. split; [exact F1|]. split; [exact E3|]. split; [exact E4|].
  rewrite F3, F4. split; f_equal; [apply fv_ext|apply fm_ext]; auto.
Qed.
Theorem C21_empirical_marginal p q diff ys (s : nat -> nat) : seen diff ys <> [] ->
  (forall i, (i < q)%nat -> (s i < p)%nat) ->
  exists o o' m C, fitted_on (C := Empirical) (mkEmpP diff) (map (fv p) ys) o /\
    fitted_on (C := Empirical) (mkEmpP diff) (map (fv q) (map (fun (y : obs) i => y (s i)) ys)) o' /\
    location_ o = Ok (fv p m) /\ covariance_ o = Ok (fm p p C) /\
    location_ o' = Ok (fv q (fun i => m (s i))) /\
    covariance_ o' = Ok (fm q q (fun i j => C (s i) (s j))).
Proof.
  intros Hx Hs.
  destruct (Empirical_run p diff _ _ (observes_seen p diff ys) Hx) as (o & E1 & _ & E3 & E4 & _).
  destruct (Empirical_run q diff _ _ (seen_sel q s diff ys)) as (o' & F1 & _ & F3 & F4 & _).
  { destruct (seen diff ys); [congruence|discriminate]. }
  exists o, o', (mean_of (seen diff ys)), (pcov_of (seen diff ys)).
  split; [exact E1|]. split; [exact F1|]. split; [exact E3|]. split; [exact E4|].
  rewrite F3, F4.
  assert (K : forall i, mean_of (map (fun (y : obs) i => y (s i)) (seen diff ys)) i = mean_of (seen diff ys) (s i)).
  { intros i. unfold mean_of. now rewrite map_map, map_length. }
  split; f_equal; [apply fv_ext; auto|]. apply fm_ext. intros i j _ _.
  unfold pcov_of. rewrite map_map, map_length. f_equal. apply lsum_map_ext. intros. now rewrite !K.
Qed.

(** ** C24, C25: correlation_ (any estimator class) *)
Theorem C24_correlations_bounded {C : EstClass NumX} (o : inst C) p F :
  covariance_ o = Ok (fm p p F) -> psd p F ->
  exists R, correlation_ o = Ok (fm p p R) /\
    (forall i j, (i < p)%nat -> (j < p)%nat -> Rabs (R i j) <= 1 /\ R i j = R j i) /\
    (forall i j, (i < p)%nat -> (j < p)%nat -> R i j = F i j / (sqrt (F i i * F j j) + 1 / 10 ^ 12)).
Proof.
  intros HC HF. exists (fun i j => F i j / (sqrt (F i i * F j j) + e12)).
  unfold correlation_. rewrite HC. cbn [bind].
  split; [apply cov_to_corrcoef_fin; intros; now apply (psd_diag_nonneg p)|].
  split; [|reflexivity]. intros i j Hi Hj. split; [now apply (corr_bound p)|].
  destruct HF as [S _]. rewrite (S i j), (Rmult_comm (F i i)); auto.
Qed.
Theorem C25_correlation_diagonal_below_one {C : EstClass NumX} (o : inst C) p F i :
  covariance_ o = Ok (fm p p F) -> psd p F -> (i < p)%nat ->
  exists R, correlation_ o = Ok (fm p p R) /\
    R i i = F i i / (F i i + 1 / 10 ^ 12) /\ 0 <= R i i < 1 /\ (F i i = 0 -> R i i = 0) /\
    (0 < F i i -> 1 - R i i < 1 / 10 ^ 12 / F i i).
Proof.
  intros HC HF Hi. exists (fun i j => F i j / (sqrt (F i i * F j j) + e12)).
  unfold correlation_. rewrite HC. cbn [bind].
  split; [apply cov_to_corrcoef_fin; intros; now apply (psd_diag_nonneg p)|].
  pose proof (psd_diag_nonneg p F i HF Hi) as H. pose proof e12_pos as E. fold e12.
  rewrite (sqrt_square (F i i)) by auto. set (v := F i i) in *.
  split; [reflexivity|]. assert (K : v / (v + e12) = 1 - e12 / (v + e12)) by (field; lra).
  assert (K2 : 0 < e12 / (v + e12)) by (apply Rdiv_lt_0_compat; lra).
  split; [split; [|lra]|split].
  - apply Rmult_le_pos; [auto|left; apply Rinv_0_lt_compat; lra].
  - intros ->. unfold Rdiv. ring.
  - intros Hv. rewrite K. replace (1 - (1 - e12 / (v + e12))) with (e12 / (v + e12)) by ring.
    unfold Rdiv. apply Rmult_lt_compat_l; auto. apply Rinv_lt_contravar; [apply Rmult_lt_0_compat; lra|lra].
Qed.

(** ** C23 (Empirical and Ewa; the other classes are in their own files) *)
(** location_, covariance_ and correlation_ all return finite arrays of the right shape *)
Definition finite_fitted {C : EstClass NumX} (p : nat) (o : inst C) : Prop :=
  exists m F R, location_ o = Ok (fv p m) /\ covariance_ o = Ok (fm p p F) /\ correlation_ o = Ok (fm p p R).
Lemma finite_fitted_intro {C : EstClass NumX} (p : nat) (o : inst C) m F :
  location_ o = Ok (fv p m) -> covariance_ o = Ok (fm p p F) -> (forall i, (i < p)%nat -> 0 <= F i i) ->
  finite_fitted p o.
Proof.
  intros H1 H2 H3. exists m, F. eexists. split; [exact H1|]. split; [exact H2|].
  unfold correlation_. rewrite H2. cbn [bind]. now apply cov_to_corrcoef_fin.
Qed.
Theorem C23_empirical_finite p diff rows xs : observes p diff rows xs -> xs <> [] ->
  exists o, fitted_on (C := Empirical) (mkEmpP diff) rows o /\ finite_fitted p o.
Proof.
  intros Ho Hx. destruct (Empirical_run p diff rows xs Ho Hx) as (o & E1 & _ & E3 & E4 & _).
  exists o. split; [exact E1|]. eapply finite_fitted_intro; eauto.
  intros i Hi. apply (psd_diag_nonneg p); auto. apply psd_pcov.
Qed.
Theorem C23_ewa_finite p r diff rows xs : 0 < r <= 1 -> observes p diff rows xs -> xs <> [] ->
  exists o, fitted_on (C := Ewa) (EWA r diff) rows o /\ finite_fitted p o.
Proof.
  intros Hr Ho Hx. destruct (Ewa_run p r diff rows xs) as (o & E1 & _ & E3 & E4 & _); auto; [lra|].
  exists o. split; [exact E1|]. eapply finite_fitted_intro; eauto.
  intros i Hi. apply (psd_diag_nonneg p); auto. apply psd_ewa_cov. lra.
Qed.

(** ** The hypotheses are met by concrete streams *)
Definition ex_rows : list obs := [fun i => INR i; fun i => INR (2 * i); fun _ => 3].
Example observes_example : observes 2 false (map (fv 2) ex_rows) ex_rows /\ ex_rows <> [] /\
  observes 2 true (map (fv 2) ex_rows) (rdiffs ex_rows) /\ rdiffs ex_rows <> [] /\ (0 < 1 / 10 <= 1) /\
  pcov_of ex_rows 1 1 = 2 / 3.
Proof.
  split; [apply observes_plain|]. split; [discriminate|]. split; [apply observes_diff|].
  split; [discriminate|]. split; [lra|]. unfold pcov_of, mean_of, ex_rows. simpl. field.
Qed.

(** * C109: an observation already absorbed cannot look extreme *)
From Coq Require Import Reals ZArith String List Lia Lra Psatz Arith Bool.
From Verif Require Import Num Numpy PyVal LinalgModel StateModel BaseModel Estimators RegistryModel Spec ListLemmas BaseProofs
  RMat LinSpec Fin RealSpec RunFin EwaReal RunAvg EmpFacts Props_Emp ShrinkReal Props_Shrink Spectral MatAlg Det Contracts LinalgReal Props_Linalg
  GaussSpec GaussReal ScoreReal Props_Score Props_Metric Props_Improper Props_Range Props_Invert.
Import ListNotations.
Local Open Scope string_scope.
Local Open Scope R_scope.

(** ** The leverage bound *)
Lemma leverage p S B d c : penrose p S B -> psd p B -> sym p S -> 0 < c ->
  (forall v, c * (rdot p d v * rdot p d v) <= qf p S v) -> 0 <= qf p B d <= / c.
Proof.
  intros (_ & HB & _ & _) [SB PB] SS Hc H. pose proof (PB d) as Q0. split; [exact Q0|]. specialize (H (rapp p B d)). rewrite <- qf_app, <- qf_congr_sq in H.
  assert (E : meq p p (rmul p (rT B) (rmul p S B)) B).
  { apply (meq_trans _ _ _ (rmul p B (rmul p S B)) _); [|exact HB]. apply rmul_ext; [|apply meq_refl]. intros i j Hi Hj. unfold rT. now apply SB. }
  rewrite (qf_meq p _ B d E) in H. set (q := qf p B d) in *. apply Rmult_le_reg_l with c; [exact Hc|]. rewrite Rinv_r by lra.
  destruct (Rle_lt_or_eq_dec _ _ Q0) as [Q|Q]; [|rewrite <- Q; lra]. apply Rmult_le_reg_r with q; [exact Q|]. lra.
Qed.
(** how much of the scatter one of the observations contributes *)
Lemma lsum_sq_ge (l : list R) : lsum l * lsum l <= INR (length l) * lsum (map (fun a => a * a) l).
Proof.
  induction l as [|a l IH]; [unfold lsum; cbn; lra|]. change (lsum (a :: l)) with (a + lsum l). change (lsum (map (fun a => a * a) (a :: l))) with (a * a + lsum (map (fun a => a * a) l)).
  change (length (a :: l)) with (S (length l)). rewrite S_INR. set (s := lsum l) in *. set (w := lsum (map (fun a => a * a) l)) in *. set (n := INR (length l)) in *.
  assert (N0 : 0 <= n) by apply pos_INR. assert (W0 : 0 <= w). { unfold w. clear. induction l as [|b l IH]; [unfold lsum; cbn; lra|]. change (0 <= b * b + lsum (map (fun a => a * a) l)). pose proof (Rle_0_sqr b) as Q. unfold Rsqr in Q. lra. }
  clearbody s w n. destruct (Req_dec n 0) as [E|E]; [subst n; assert (s * s <= 0) by lra; assert (s = 0) by (pose proof (Rle_0_sqr s) as Q; unfold Rsqr in Q; assert (s * s = 0) by lra; apply Rmult_integral in H0; tauto); subst s; nra|].
  assert (2 * a * s <= n * (a * a) + w); [|nra]. apply Rmult_le_reg_l with n; [lra|]. pose proof (Rle_0_sqr (n * a - s)) as Q. unfold Rsqr in Q. nra.
Qed.
Lemma qf_pcov p xs v : xs <> [] -> qf p (pcov_of xs) v = lsum (map (fun x => (rdot p v x - rdot p v (mean_of xs)) * (rdot p v x - rdot p v (mean_of xs))) xs) / INR (length xs).
Proof.
  intros Hx. transitivity (pcov_of (map (aff p (fun _ => v) (fun _ => 0)) xs) 0%nat 0%nat); [rewrite pcov_aff; reflexivity|]. unfold pcov_of. rewrite map_length, map_map, mean_aff by auto.
  assert (E : forall x, aff p (fun _ => v) (fun _ => 0) x 0%nat = rdot p v x) by (intros x; unfold aff, rdot; ring).
  f_equal. apply lsum_map_ext. intros x _. rewrite !E. reflexivity.
Qed.
Lemma dev_sum p xs v : xs <> [] -> lsum (map (fun x => rdot p v x - rdot p v (mean_of xs)) xs) = 0.
Proof.
  intros Hx. pose proof (mean_aff p (fun _ => v) (fun _ => 0) xs 0%nat Hx) as M. assert (E : forall x, aff p (fun _ => v) (fun _ => 0) x 0%nat = rdot p v x) by (intros x; unfold aff, rdot; ring).
  rewrite E in M. rewrite <- M. set (c := mean_of (map (aff p (fun _ => v) (fun _ => 0)) xs) 0%nat).
  unfold Rminus. rewrite (lsum_map_plus (rdot p v) (fun _ => - c)), lsum_const. unfold c, mean_of. rewrite map_map, map_length.
  rewrite (lsum_map_ext (fun x => aff p (fun _ => v) (fun _ => 0) x 0%nat) (rdot p v)) by (intros; apply E). assert (INR (length xs) <> 0) by (apply not_0_INR; destruct xs; [congruence|discriminate]). field. auto.
Qed.
Lemma rdot_sub p v x m : rdot p (fun i => x i - m i) v = rdot p v x - rdot p v m.
Proof. unfold rdot. rewrite <- rsum_minus. apply rsum_ext. intros. ring. Qed.
Lemma rdot_comm' p u v : rdot p u v = rdot p v u.
Proof. unfold rdot. apply rsum_ext. intros. ring. Qed.
Lemma pcov_leverage p xs x v : In x xs -> (2 <= length xs)%nat ->
  / (INR (length xs) - 1) * (rdot p (fun i => x i - mean_of xs i) v * rdot p (fun i => x i - mean_of xs i) v) <= qf p (pcov_of xs) v.
Proof.
  intros Hi Hn. assert (Hx : xs <> []) by (intros ->; destruct Hi). rewrite qf_pcov, rdot_sub by auto. pose proof (dev_sum p xs v Hx) as D.
  set (g := fun x => rdot p v x - rdot p v (mean_of xs)) in *. change (rdot p v x - rdot p v (mean_of xs)) with (g x).
  change (lsum (map (fun x0 => (rdot p v x0 - rdot p v (mean_of xs)) * (rdot p v x0 - rdot p v (mean_of xs))) xs)) with (lsum (map (fun x => g x * g x) xs)).
  destruct (in_split _ _ Hi) as (l1 & l2 & E). assert (N2 : 2 <= INR (length xs)) by (replace 2 with (INR 2) by (cbn; lra); now apply le_INR).
  assert (LN : INR (length (l1 ++ l2)) = INR (length xs) - 1). { rewrite E, !app_length. cbn [length]. rewrite Nat.add_succ_r, S_INR. ring. }
  assert (D1 : lsum (map g (l1 ++ l2)) = - g x). { rewrite E, map_app in D. cbn [map] in D. rewrite map_app. rewrite lsum_app in *. cbn [lsum] in D. lra. }
  assert (D2 : lsum (map (fun x => g x * g x) xs) = g x * g x + lsum (map (fun a => a * a) (map g (l1 ++ l2)))).
  { rewrite map_map, E, !map_app, !lsum_app. cbn [map lsum]. ring. }
  pose proof (lsum_sq_ge (map g (l1 ++ l2))) as Q. rewrite map_length, D1, LN in Q. rewrite D2. set (w := lsum (map (fun a => a * a) (map g (l1 ++ l2)))) in *. set (n := INR (length xs)) in *. set (a := g x) in *.
  clearbody w n a. apply Rmult_le_reg_r with (n * (n - 1)); [apply Rmult_lt_0_compat; lra|].
  replace (/ (n - 1) * (a * a) * (n * (n - 1))) with (n * (a * a)) by (field; lra). replace ((a * a + w) / n * (n * (n - 1))) with ((n - 1) * (a * a) + (n - 1) * w) by (field; lra). lra.
Qed.
(** ** C109 *)
(** EmpiricalCovariance: no observation it has absorbed is further than n - 1 (squared Mahalanobis distance) from location_, however extreme it is; where the covariance
    is positive definite the distances add up to n p exactly. *)
Theorem C109_empirical_masking L p diff rows xs : lawful L -> (1 <= p)%nat -> observes p diff rows xs -> xs <> [] ->
  exists o ds, fitted_on (C := Empirical) (mkEmpP diff) rows o /\ mahalanobis L o (In2 (map (fv p) xs)) = Ok (map (fun d => Fin d) ds) /\
    Forall (fun d => 0 <= d <= INR (length xs) - 1) ds /\
    (pd p (pcov_of xs) -> lsum ds = INR (length xs) * INR p).
Proof.
  intros HL Hp Ho Hx. destruct (Empirical_run p diff rows xs Ho Hx) as (o & E1 & _ & E3 & E4 & _).
  destruct (C66_precision_is_pseudo_inverse L Empirical o p (pcov_of xs) HL Hp eq_refl E4 (sym_pcov xs p)) as (B & F1 & F2 & _ & F4 & F5). specialize (F5 (psd_pcov p xs)).
  exists o, (map (fun x => qf p B (fun i => x i - mean_of xs i)) xs). split; [exact E1|]. destruct (C67_mahalanobis L Empirical o p _ B xs Hp E3 F1) as (K & _ & _).
  split; [rewrite K, map_map; reflexivity|]. split.
  - apply Forall_forall. intros d Hd. apply in_map_iff in Hd. destruct Hd as (x & <- & Ix). destruct (Nat.eq_dec (length xs) 1) as [L1|L1].
    + rewrite L1. cbn [INR]. destruct xs as [|y [|z l]]; try discriminate. destruct Ix as [->|[]]. rewrite qf_zero; [lra|]. intros i _. unfold mean_of. cbn. field.
    + assert (L2 : (2 <= length xs)%nat) by (destruct xs as [|y [|z l]]; cbn in *; try congruence; lia). assert (N2 : 2 <= INR (length xs)) by (replace 2 with (INR 2) by (cbn; lra); now apply le_INR).
      assert (IP : 0 < / (INR (length xs) - 1)) by (apply Rinv_0_lt_compat; lra).
      pose proof (leverage p (pcov_of xs) B (fun i => x i - mean_of xs i) (/ (INR (length xs) - 1)) F2 F5 (sym_pcov xs p) IP (fun v => pcov_leverage p xs x v Ix L2)) as Q.
      rewrite Rinv_inv in Q. exact Q.
  - intros HP. specialize (F4 (pd_invertible p _ HP)). pose proof (lmean_qf' p B (mean_of xs) xs) as Q. unfold lmean in Q. rewrite map_length in Q.
    assert (T : rtrace p (rmul p B (second_moment (mean_of xs) xs)) = INR p).
    { rewrite <- (inverse_trace p (pcov_of xs) B F4). unfold rtrace. apply rsum_ext. intros i Hi. unfold rmul. apply rsum_ext. intros k Hk. now rewrite second_moment_mean. }
    rewrite T in Q. assert (INR (length xs) <> 0) by (apply not_0_INR; destruct xs; [congruence|discriminate]). rewrite <- Q. field. auto.
Qed.
Lemma ewa_leverage p r nb xs x v : 0 <= r <= 1 -> (nb <= length xs)%nat ->
  r * (rdot p (fun i => x i - ewa_mean r nb xs i) v * rdot p (fun i => x i - ewa_mean r nb xs i) v) <= qf p (ewa_cov r nb (xs ++ [x])) v.
Proof.
  intros Hr Hn. set (d := fun i => x i - ewa_mean r nb xs i).
  assert (M : meq p p (ewa_cov r nb (xs ++ [x])) (fun i j => (1 - r) * ewa_cov r nb xs i j + r * (d i * d j))).
  { intros i j _ _. rewrite ewa_cov_step. cbv zeta. destruct (Nat.ltb_spec (length xs) nb); [lia|reflexivity]. }
  rewrite (qf_meq p _ _ v M), (qf_plus p (fun i j => (1 - r) * ewa_cov r nb xs i j) (fun i j => r * (d i * d j))), !qf_scal.
  pose proof (proj2 (psd_ewa_cov p r nb xs Hr) v) as P. assert (E : qf p (fun i j => d i * d j) v = rdot p d v * rdot p d v).
  { unfold qf, rdot. rewrite <- rsum_scal_r. apply rsum_ext. intros i _. rewrite <- rsum_scal. apply rsum_ext. intros j _. ring. }
  rewrite E. assert (0 <= (1 - r) * qf p (ewa_cov r nb xs) v) by (apply Rmult_le_pos; lra). lra.
Qed.
Lemma qf_scale_vec p B c d : qf p B (fun i => c * d i) = c * c * qf p B d.
Proof. unfold qf. rewrite <- rsum_scal. apply rsum_ext. intros i _. rewrite <- rsum_scal. apply rsum_ext. intros j _. ring. Qed.
(** EwaCovariance past its burn-in: whatever the observation just absorbed, its squared distance is at most (1-r)^2/r (18.05 for the default rate), although before it was
    absorbed the distance could be made as large as one likes. *)
Theorem C109_ewa_masking L p r diff rows xs x : lawful L -> (1 <= p)%nat -> 0 < r <= 1 -> observes p diff rows (xs ++ [x]) -> (burn_len r <= length xs)%nat ->
  exists o d, fitted_on (C := Ewa) (EWA r diff) rows o /\ mahalanobis L o (In1 (fv p x)) = Ok [Fin d] /\ 0 <= d <= (1 - r) * (1 - r) / r.
Proof.
  intros HL Hp Hr Ho Hb. assert (N : (xs ++ [x])%list <> []) by (intros E; apply app_eq_nil in E; destruct E; discriminate).
  destruct (Ewa_run p r diff rows (xs ++ [x]) ltac:(lra) Ho N) as (o & E1 & _ & E3 & E4 & _). set (S := ewa_cov r (burn_len r) (xs ++ [x])) in *.
  assert (PS : psd p S) by (apply psd_ewa_cov; lra).
  destruct (C66_precision_is_pseudo_inverse L Ewa o p S HL Hp eq_refl E4 (proj1 PS)) as (B & F1 & F2 & _ & F4 & F5). specialize (F5 PS).
  destruct (C67_mahalanobis L Ewa o p _ B [x] Hp E3 F1) as (K & _ & _). exists o. eexists. split; [exact E1|]. split; [exact K|].
  set (d := fun i => x i - ewa_mean r (burn_len r) xs i).
  assert (E : qf p B (fun i => x i - ewa_mean r (burn_len r) (xs ++ [x]) i) = (1 - r) * (1 - r) * qf p B d).
  { rewrite <- qf_scale_vec. apply qf_ext; [apply meq_refl|]. intros i _. rewrite ewa_step_eq. destruct (Nat.ltb_spec (length xs) (burn_len r)); [lia|]. unfold d. ring. }
  rewrite E. destruct (leverage p S B d r F2 F5 (proj1 PS) ltac:(lra) (fun v => ewa_leverage p r _ xs x v ltac:(lra) Hb)) as [Q0 Q1].
  pose proof (Rle_0_sqr (1 - r)) as Q2. unfold Rsqr in Q2. split; [now apply Rmult_le_pos|]. unfold Rdiv. now apply Rmult_le_compat_l.
Qed.
(** a vector of any length in the metric of a positive definite matrix *)
Lemma far_away p B m K : (1 <= p)%nat -> pd p B -> exists x : obs, K < qf p B (fun i => x i - m i).
Proof.
  intros Hp HB. set (u := fun i => if Nat.eqb i 0 then 1 else 0). assert (Q : 0 < qf p B u) by (apply (proj2 HB); exists 0%nat; split; [lia|unfold u; cbn; lra]).
  set (q := qf p B u) in *. set (t := 1 + Rabs K / q). exists (fun i => m i + t * u i).
  rewrite (qf_ext p B B _ (fun i => t * u i)) by (try apply meq_refl; intros; ring). rewrite qf_scale_vec. fold q. pose proof (Rle_abs K) as A. pose proof (Rabs_pos K) as A0.
  assert (T : t * q = q + Rabs K) by (unfold t; field; lra). assert (T1 : 1 <= t) by (unfold t; assert (0 <= Rabs K / q) by (apply Rle_mult_inv_pos; lra); lra).
  replace (t * t * q) with (t * (t * q)) by ring. rewrite T. assert (1 * (q + Rabs K) <= t * (q + Rabs K)) by (apply Rmult_le_compat_r; lra). lra.
Qed.
(** The same estimator, the same observation, asked before and after partial_fit: before, the distance exceeds any bound K; after, the cap applies. *)
Theorem C109_before_and_after L p r xs K : lawful L -> (1 <= p)%nat -> 0 < r < 1 -> (burn_len r <= length xs)%nat ->
  (forall v, constant_along p v xs -> forall i, (i < p)%nat -> v i = 0) ->
  exists x o o' d d', fitted_on (C := Ewa) (EWA r false) (map (fv p) xs) o /\ partial_fit o (In1 (fv p x)) = (o', Ok tt) /\
    mahalanobis L o (In1 (fv p x)) = Ok [Fin d] /\ mahalanobis L o' (In1 (fv p x)) = Ok [Fin d'] /\
    K < d /\ d' <= (1 - r) * (1 - r) / r.
Proof.
  intros HL Hp Hr Hb HC. assert (N : xs <> []) by (intros ->; cbn in Hb; pose proof (burn_len_bounds r); lia).
  destruct (C108_ewa_null_directions p r false (map (fv p) xs) xs Hr (observes_plain p xs) N) as (o & S & E1 & E2 & _ & E4).
  pose proof (proj2 E4 HC) as PD. destruct (Ewa_run p r false (map (fv p) xs) xs ltac:(lra) (observes_plain p xs) N) as (o1 & G1 & _ & G3 & _).
  unfold fitted_on, EWA in E1. rewrite G1 in E1. injection E1 as <-.
  destruct (inverts_pd L Ewa p o1 S HL Hp eq_refl E2 PD) as (B & B1 & _ & B3).
  destruct (far_away p B (ewa_mean r (burn_len r) xs) K Hp B3) as (x & HK). destruct (C67_mahalanobis L Ewa o1 p _ B [x] Hp G3 B1) as (M & _ & _).
  destruct (C109_ewa_masking L p r false (map (fv p) (xs ++ [x])) xs x HL Hp ltac:(lra) (observes_plain p _) Hb) as (o' & d' & F1 & F2 & F3).
  exists x, o1, o'. do 2 eexists. split; [exact G1|]. split; [|split; [exact M|split; [exact F2|split; [exact HK|apply F3]]]].
  unfold fitted_on, EWA in F1. unfold partial_fit in *. cbn [as_rows] in *. rewrite map_app in F1. cbn [map] in F1. rewrite fit_rows_app in F1. rewrite G1 in F1. exact F1.
Qed.
(** the premises are met: the corners of a box repeated until the burn-in is over *)
Example C109_witness : let xs := [(fun _ => 0); (fun i => if Nat.eqb i 0 then 1 else 0); (fun i => if Nat.eqb i 1 then 1 else 0); (fun _ => 0); (fun _ => 0)] in
  (burn_len (1 / 2) <= length xs)%nat /\ (forall v, constant_along 2 v xs -> forall i, (i < 2)%nat -> v i = 0) /\ pd 2 (pcov_of xs).
Proof.
  intros xs. assert (HC : forall v, constant_along 2 v xs -> forall i, (i < 2)%nat -> v i = 0).
  { intros v H i Hi. pose proof (H _ _ (or_introl eq_refl) (or_intror (or_introl eq_refl))) as H1. pose proof (H _ _ (or_introl eq_refl) (or_intror (or_intror (or_introl eq_refl)))) as H2.
    unfold rdot in H1, H2. cbn in H1, H2. destruct i as [|[|i]]; [lra|lra|lia]. }
  split; [|split; [exact HC|]].
  - assert (burn_len (1 / 2) = 5%nat) as ->; [|cbn; lia]. unfold burn_len. assert (up (- (1 / (1 / 2))) = (-1)%Z) as ->; [|reflexivity]. symmetry. apply tech_up; cbn; lra.
  - destruct (C108_empirical_null_directions 2 false (map (fv 2) xs) xs (observes_plain 2 xs) ltac:(discriminate)) as (o & S & E1 & E2 & E3 & E4).
    destruct (Empirical_run 2 false (map (fv 2) xs) xs (observes_plain 2 xs) ltac:(discriminate)) as (o1 & G1 & _ & _ & G4 & _). unfold fitted_on in E1. rewrite G1 in E1. injection E1 as <-.
    rewrite G4 in E2. injection E2 as W1 W2 W3 W4. apply (pd_ext 2 S); [|now apply E4]. intros i j Hi Hj. symmetry. clear - W1 W2 W3 W4 Hi Hj. clearbody xs. destruct i as [|[|i]]; [| |lia]; (destruct j as [|[|j]]; [| |lia]); assumption.
Qed.

(** * C85: old data is forgotten at the advertised rate *)
From Coq Require Import Reals ZArith String List Lia Lra Arith Bool.
From Verif Require Import Num Numpy PyVal LinalgModel StateModel BaseModel Estimators
  Spec ListLemmas BaseProofs RMat LinSpec Fin RealSpec RunFin EwaReal RunAvg EmpFacts Props_Emp MomentReal Props_Moment.
Import ListNotations.
Local Open Scope R_scope.

(** ** Recursions *)
Lemma mean_forgets r nb xs ys i : (nb <= length xs)%nat -> (nb <= length ys)%nat -> forall zs,
  ewa_mean r nb (xs ++ zs)%list i - ewa_mean r nb (ys ++ zs)%list i = (1 - r) ^ length zs * (ewa_mean r nb xs i - ewa_mean r nb ys i).
Proof.
  intros Hx Hy zs. induction zs as [|z zs IH] using rev_ind; [rewrite !app_nil_r; simpl; ring|].
  rewrite !app_assoc, !ewa_step_eq, !app_length. cbn [length]. rewrite Nat.add_1_r. cbn [pow].
  destruct (Nat.ltb_spec (length xs + length zs) nb); [lia|]. destruct (Nat.ltb_spec (length ys + length zs) nb); [lia|].
  transitivity ((1 - r) * (ewa_mean r nb (xs ++ zs)%list i - ewa_mean r nb (ys ++ zs)%list i)); [ring|]. rewrite IH. ring.
Qed.
(** any matrix that absorbs the products of innovations with weight r after the burn-in *)
Definition absorbs_products (r : R) (nb : nat) (V : list obs -> rmat) (i j : nat) : Prop :=
  forall xs x, (nb <= length xs)%nat ->
    V (xs ++ [x])%list i j = (1 - r) * V xs i j + r * ((x i - ewa_mean r nb xs i) * (x j - ewa_mean r nb xs j)).
Lemma products_forget r nb V i j xs ys : absorbs_products r nb V i j -> (nb <= length xs)%nat -> (nb <= length ys)%nat ->
  forall zs, zs <> [] ->
  let q := 1 - r in let k := length zs in
  let d a := ewa_mean r nb xs a - ewa_mean r nb ys a in
  let u a := ewa_mean r nb (ys ++ zs)%list a - ewa_mean r nb ys a in
  V (xs ++ zs)%list i j - V (ys ++ zs)%list i j =
    q ^ k * (V xs i j - V ys i j) + q ^ (k - 1) * ((1 - q ^ k) * (d i * d j) - d i * u j - u i * d j).
Proof.
  intros HV Hx Hy zs. induction zs as [|z zs IH] using rev_ind; [congruence|]. intros _ q k d u.
  rewrite !app_assoc. rewrite !HV by (rewrite app_length; lia).
  assert (E : forall a, ewa_mean r nb (xs ++ zs)%list a = ewa_mean r nb (ys ++ zs)%list a + q ^ length zs * d a).
  { intros a. pose proof (mean_forgets r nb xs ys a Hx Hy zs). unfold q, d. lra. }
  assert (Eu : forall a, u a = ewa_mean r nb (ys ++ zs)%list a - ewa_mean r nb ys a + r * (z a - ewa_mean r nb (ys ++ zs)%list a)).
  { intros a. unfold u. rewrite app_assoc, ewa_step_eq. destruct (Nat.ltb_spec (length (ys ++ zs)) nb); [rewrite app_length in *; lia|]. ring. }
  assert (Ek : k = S (length zs)) by (unfold k; rewrite app_length; cbn [length]; lia). rewrite Ek. cbn [Nat.sub]. rewrite Nat.sub_0_r.
  rewrite !Eu, !E. set (a := ewa_mean r nb (ys ++ zs)%list) in *.
  destruct zs as [|y zs].
  - unfold a. rewrite !app_nil_r. cbn [length pow]. unfold q. ring.
  - specialize (IH ltac:(discriminate)). cbv zeta in IH. fold q d a in IH. cbn [length] in *. cbn [Nat.sub] in IH. rewrite Nat.sub_0_r in IH.
    set (w := V (xs ++ y :: zs)%list i j) in *. set (w' := V (ys ++ y :: zs)%list i j) in *.
    replace w with (w' + (q ^ S (length zs) * (V xs i j - V ys i j) + q ^ length zs * ((1 - q ^ S (length zs)) * (d i * d j) - d i * (a j - ewa_mean r nb ys j) - (a i - ewa_mean r nb ys i) * d j))) by lra.
    cbn [pow]. unfold q. ring.
Qed.
Lemma ewa_absorbs r nb i j : absorbs_products r nb (ewa_cov r nb) i j.
Proof. intros xs x H. rewrite ewa_cov_step. cbv zeta. destruct (Nat.ltb_spec (length xs) nb); [lia|]. reflexivity. Qed.
Lemma innov_absorbs r nb i : absorbs_products r nb (fun xs a _ => innov_var r nb xs a) i i.
Proof. intros xs x H. unfold innov_var. rewrite rw_avg_snoc. destruct (Nat.ltb_spec (length xs) nb); [lia|]. unfold dev. ring. Qed.

Lemma abs_btw x a : Rabs x <= a -> - a <= x <= a.
Proof. intros H. unfold Rabs in H. destruct (Rcase_abs x); lra. Qed.
(** every row has entries of magnitude at most B *)
Definition bounded_rows (p : nat) (B : R) (xs : list obs) : Prop := forall x i, In x xs -> (i < p)%nat -> Rabs (x i) <= B.
Lemma bounded_app p B xs ys : bounded_rows p B (xs ++ ys) -> bounded_rows p B xs /\ bounded_rows p B ys.
Proof. intros H. split; intros x i Hx; apply H; apply in_or_app; auto. Qed.
Lemma ewa_mean_bounded p r nb xs B i : 0 < r <= 1 -> (1 <= nb)%nat -> xs <> [] -> bounded_rows p B xs -> (i < p)%nat -> Rabs (ewa_mean r nb xs i) <= B.
Proof.
  intros Hr Hn Hx HB Hi. apply Rabs_le. apply ewa_mean_range; auto; [lra|]. intros x H. specialize (HB x i H Hi). apply abs_btw in HB. lra.
Qed.
Lemma abs_diff a b B : Rabs a <= B -> Rabs b <= B -> Rabs (a - b) <= 2 * B.
Proof. intros Ha Hb. apply Rabs_le. apply abs_btw in Ha. apply abs_btw in Hb. lra. Qed.
Lemma abs_prod a b A B : Rabs a <= A -> Rabs b <= B -> Rabs (a * b) <= A * B.
Proof. intros Ha Hb. rewrite Rabs_mult. pose proof (Rabs_pos a). pose proof (Rabs_pos b). apply Rmult_le_compat; auto. Qed.
Lemma abs_mix t a b M : 0 <= t <= 1 -> Rabs a <= M -> Rabs b <= M -> Rabs ((1 - t) * a + t * b) <= M.
Proof. intros Ht Ha Hb. apply Rabs_le. apply abs_btw in Ha. apply abs_btw in Hb. nra. Qed.
Lemma mean_B p r nb xs B i : 0 < r <= 1 -> (1 <= nb)%nat -> bounded_rows p B xs -> (i < p)%nat -> 0 <= B -> Rabs (ewa_mean r nb xs i) <= B.
Proof.
  intros Hr Hn HB Hi H0. destruct xs as [|x xs].
  - unfold ewa_mean, burn, after. rewrite firstn_nil, skipn_nil, ewm_nil, mean_nil, Rabs_R0. auto.
  - apply (ewa_mean_bounded p); auto. discriminate.
Qed.
Lemma ewa_cov_bounded p r nb B i j : 0 < r <= 1 -> (1 <= nb)%nat -> 0 <= B -> (i < p)%nat -> (j < p)%nat ->
  forall xs, bounded_rows p B xs -> Rabs (ewa_cov r nb xs i j) <= 4 * (B * B).
Proof.
  intros Hr Hn H0 Hi Hj xs. induction xs as [|x xs IH] using rev_ind; intros HB.
  - unfold ewa_cov, burn, after. rewrite firstn_nil, skipn_nil, ewc_nil, pcov_nil, Rabs_R0. assert (0 <= B * B) by (apply Rmult_le_pos; auto). lra.
  - pose proof (bounded_app _ _ _ _ HB) as [B1 B2]. specialize (IH B1). rewrite ewa_cov_step. cbv zeta.
    assert (D : forall a, (a < p)%nat -> Rabs (x a - ewa_mean r nb xs a) <= 2 * B).
    { intros a Ha. apply abs_diff; [apply B2; simpl; auto|]. now apply (mean_B p). }
    destruct (Nat.ltb_spec (length xs) nb).
    + assert (NZ : INR (S (length xs)) <> 0) by (apply not_0_INR; lia).
      set (t := / INR (S (length xs))). pose proof (inv_S_range (length xs)) as Ht. fold t in Ht.
      match goal with |- Rabs ?e <= _ => replace e with ((1 - t) * ewa_cov r nb xs i j + t * ((x i - ewa_mean r nb xs i) * ((1 - t) * (x j - ewa_mean r nb xs j)))) end.
      2:{ unfold t. rewrite S_INR in *. field. auto. }
      apply abs_mix; [lra|auto|]. replace (4 * (B * B)) with ((2 * B) * (2 * B)) by ring. apply abs_prod; [auto|].
      rewrite Rabs_mult, (Rabs_right (1 - t)) by lra. specialize (D j Hj). pose proof (Rabs_pos (x j - ewa_mean r nb xs j)). nra.
    + apply abs_mix; [lra|auto|]. replace (4 * (B * B)) with ((2 * B) * (2 * B)) by ring. apply abs_prod; auto.
Qed.
Lemma innov_var_bounded p r nb B i : 0 < r <= 1 -> (1 <= nb)%nat -> 0 <= B -> (i < p)%nat ->
  forall xs, bounded_rows p B xs -> Rabs (innov_var r nb xs i) <= 4 * (B * B).
Proof.
  intros Hr Hn H0 Hi xs. unfold innov_var. induction xs as [|x xs IH] using rev_ind; intros HB.
  - rewrite rw_avg_nil, Rabs_R0. assert (0 <= B * B) by (apply Rmult_le_pos; auto). lra.
  - pose proof (bounded_app _ _ _ _ HB) as [B1 B2]. specialize (IH B1). rewrite rw_avg_snoc.
    assert (D : Rabs (dev r nb xs x i * dev r nb xs x i) <= 4 * (B * B)).
    { replace (4 * (B * B)) with ((2 * B) * (2 * B)) by ring. unfold dev. apply abs_prod; (apply abs_diff; [apply B2; simpl; auto|]; now apply (mean_B p)). }
    destruct (Nat.ltb_spec (length xs) nb).
    + pose proof (inv_S_range (length xs)) as Ht. unfold Rdiv. set (t := / INR (S (length xs))) in *.
      match goal with |- Rabs (?a + (?b - ?a) * t) <= _ => replace (a + (b - a) * t) with ((1 - t) * a + t * b) by ring end. apply abs_mix; auto; lra.
    + apply abs_mix; auto; lra.
Qed.
Lemma forget_bound r q k V V' d1 d2 u1 u2 B : 0 < r <= 1 -> q = 1 - r -> 0 <= B ->
  Rabs V <= 4 * (B * B) -> Rabs V' <= 4 * (B * B) -> Rabs d1 <= 2 * B -> Rabs d2 <= 2 * B -> Rabs u1 <= 2 * B -> Rabs u2 <= 2 * B ->
  Rabs (q ^ S k * (V - V') + q ^ k * ((1 - q ^ S k) * (d1 * d2) - d1 * u2 - u1 * d2)) <= 20 * (B * B) * q ^ k.
Proof.
  intros Hr Eq HB HV HV' H1 H2 H3 H4.
  assert (Q : 0 <= q <= 1) by lra. assert (Qk : 0 <= q ^ k <= 1) by (split; [now apply pow_le|rewrite <- (pow1 k); now apply pow_incr]).
  assert (Qs : 0 <= q ^ S k <= q ^ k) by (cbn [pow]; split; [apply Rmult_le_pos; lra|nra]).
  pose proof (abs_prod d1 d2 _ _ H1 H2) as P1. pose proof (abs_prod d1 u2 _ _ H1 H4) as P2. pose proof (abs_prod u1 d2 _ _ H3 H2) as P3.
  apply abs_btw in HV. apply abs_btw in HV'. apply abs_btw in P1. apply abs_btw in P2. apply abs_btw in P3.
  set (a := d1 * d2) in *. set (b := d1 * u2) in *. set (c := u1 * d2) in *. set (W := V - V'). assert (HW : - (8 * (B * B)) <= W <= 8 * (B * B)) by (unfold W; lra).
  replace (2 * B * (2 * B)) with (4 * (B * B)) in * by ring. set (M := B * B) in *. assert (M0 : 0 <= M) by (unfold M; apply Rmult_le_pos; auto).
  assert (A1 : - (4 * M) <= (1 - q ^ S k) * a <= 4 * M) by nra.
  assert (A2 : - (12 * M) <= (1 - q ^ S k) * a - b - c <= 12 * M) by lra. set (e := (1 - q ^ S k) * a - b - c) in *.
  assert (A3 : - (8 * M) * q ^ k <= q ^ S k * W <= 8 * M * q ^ k) by nra.
  assert (A4 : - (12 * M) * q ^ k <= q ^ k * e <= 12 * M * q ^ k) by nra.
  apply Rabs_le. lra.
Qed.

(** ** C85 *)
(** Two histories, each at least as long as the burn-in, followed by the same k >= 1 observations: the means differ by exactly (1-r)^k times what they differed
    by before, and the covariances by the explicit term below, which is of order (1-r)^(k-1). *)
Theorem C85_ewa_exact p r diff rows rows' xs ys zs : 0 < r <= 1 -> (burn_len r <= length xs)%nat -> (burn_len r <= length ys)%nat -> zs <> [] ->
  observes p diff rows (xs ++ zs) -> observes p diff rows' (ys ++ zs) ->
  let nb := burn_len r in let k := length zs in
  let d a := ewa_mean r nb xs a - ewa_mean r nb ys a in
  let u a := ewa_mean r nb (ys ++ zs)%list a - ewa_mean r nb ys a in
  exists o o' m m' S S', fitted_on (C := Ewa) (EWA r diff) rows o /\ fitted_on (C := Ewa) (EWA r diff) rows' o' /\
    location_ o = Ok (fv p m) /\ location_ o' = Ok (fv p m') /\ covariance_ o = Ok (fm p p S) /\ covariance_ o' = Ok (fm p p S') /\
    (forall i, m i - m' i = (1 - r) ^ k * d i) /\
    (forall i j, S i j - S' i j = (1 - r) ^ k * (ewa_cov r nb xs i j - ewa_cov r nb ys i j)
                                  + (1 - r) ^ (k - 1) * ((1 - (1 - r) ^ k) * (d i * d j) - d i * u j - u i * d j)).
Proof.
  intros Hr Hx Hy Hz Ho Ho' nb k d u. assert (r <> 0) by lra.
  assert (N : forall l : list obs, (l ++ zs)%list <> []) by (intros l E; apply app_eq_nil in E; tauto).
  destruct (Ewa_run p r diff rows (xs ++ zs)) as (o & E1 & _ & E3 & E4 & _); auto.
  destruct (Ewa_run p r diff rows' (ys ++ zs)) as (o' & F1 & _ & F3 & F4 & _); auto.
  exists o, o'. do 4 eexists. split; [exact E1|]. split; [exact F1|]. split; [exact E3|]. split; [exact F3|]. split; [exact E4|]. split; [exact F4|]. split.
  - intros i. now apply mean_forgets.
  - intros i j. apply (products_forget r nb (ewa_cov r nb) i j xs ys); auto. apply ewa_absorbs.
Qed.
(** With entries of magnitude at most B: means within 2 B (1-r)^k, covariances within 20 B^2 (1-r)^(k-1), whatever the histories were. *)
Theorem C85_ewa_forgets p r diff rows rows' xs ys zs B : 0 < r <= 1 -> (burn_len r <= length xs)%nat -> (burn_len r <= length ys)%nat -> zs <> [] ->
  observes p diff rows (xs ++ zs) -> observes p diff rows' (ys ++ zs) -> bounded_rows p B (xs ++ zs) -> bounded_rows p B (ys ++ zs) -> 0 <= B ->
  exists o o' m m' S S', fitted_on (C := Ewa) (EWA r diff) rows o /\ fitted_on (C := Ewa) (EWA r diff) rows' o' /\
    location_ o = Ok (fv p m) /\ location_ o' = Ok (fv p m') /\ covariance_ o = Ok (fm p p S) /\ covariance_ o' = Ok (fm p p S') /\
    (forall i, (i < p)%nat -> Rabs (m i - m' i) <= 2 * B * (1 - r) ^ length zs) /\
    (forall i j, (i < p)%nat -> (j < p)%nat -> Rabs (S i j - S' i j) <= 20 * (B * B) * (1 - r) ^ (length zs - 1)).
Proof.
  intros Hr Hx Hy Hz Ho Ho' HB HB' H0.
  destruct (C85_ewa_exact p r diff rows rows' xs ys zs Hr Hx Hy Hz Ho Ho') as (o & o' & m & m' & S & S' & E1 & E2 & E3 & E4 & E5 & E6 & E7 & E8).
  exists o, o', m, m', S, S'. do 6 (split; [assumption|]).
  pose proof (burn_len_bounds r) as HN. set (nb := burn_len r) in *. assert (Hnb : (1 <= nb)%nat) by lia.
  pose proof (bounded_app _ _ _ _ HB) as [Bx _]. pose proof (bounded_app _ _ _ _ HB') as [By _].
  assert (Mx : forall l a, bounded_rows p B l -> (a < p)%nat -> Rabs (ewa_mean r nb l a) <= B) by (intros; now apply (mean_B p)).
  split.
  - intros i Hi. rewrite E7, Rabs_mult, (Rabs_right ((1 - r) ^ length zs)) by (apply Rle_ge, pow_le; lra). rewrite Rmult_comm. apply Rmult_le_compat_r; [apply pow_le; lra|].
    apply abs_diff; auto.
  - intros i j Hi Hj. rewrite E8. destruct zs as [|z zs]; [congruence|]. cbn [length Nat.sub]. rewrite Nat.sub_0_r.
    apply (forget_bound r); auto; try (apply (ewa_cov_bounded p); auto); try (apply abs_diff; auto).
Qed.
(** DiagonalCovariance forgets at the same rate. *)
Theorem C85_diagonal_forgets p r diff rows rows' xs ys zs B : 0 < r <= 1 -> (burn_len r <= length xs)%nat -> (burn_len r <= length ys)%nat -> zs <> [] ->
  observes p diff rows (xs ++ zs) -> observes p diff rows' (ys ++ zs) -> bounded_rows p B (xs ++ zs) -> bounded_rows p B (ys ++ zs) -> 0 <= B ->
  exists o o' m m' v v', fitted_on (C := Diagonal) (EWA r diff) rows o /\ fitted_on (C := Diagonal) (EWA r diff) rows' o' /\
    location_ o = Ok (fv p m) /\ location_ o' = Ok (fv p m') /\ covariance_ o = Ok (fm p p (rdiag v)) /\ covariance_ o' = Ok (fm p p (rdiag v')) /\
    (forall i, (i < p)%nat -> Rabs (m i - m' i) <= 2 * B * (1 - r) ^ length zs) /\
    (forall i, (i < p)%nat -> Rabs (v i - v' i) <= 20 * (B * B) * (1 - r) ^ (length zs - 1)).
Proof.
  intros Hr Hx Hy Hz Ho Ho' HB HB' H0. assert (r <> 0) by lra.
  assert (N : forall l : list obs, (l ++ zs)%list <> []) by (intros l E; apply app_eq_nil in E; tauto).
  destruct (Diagonal_run p r diff rows (xs ++ zs)) as (o & E1 & _ & E3 & E4 & _); auto.
  destruct (Diagonal_run p r diff rows' (ys ++ zs)) as (o' & F1 & _ & F3 & F4 & _); auto.
  exists o, o'. eexists _, _, (innov_var r (burn_len r) (xs ++ zs)), (innov_var r (burn_len r) (ys ++ zs)).
  split; [exact E1|]. split; [exact F1|]. split; [exact E3|]. split; [exact F3|]. split; [exact E4|]. split; [exact F4|].
  pose proof (burn_len_bounds r) as HN. set (nb := burn_len r) in *. assert (Hnb : (1 <= nb)%nat) by lia.
  pose proof (bounded_app _ _ _ _ HB) as [Bx _]. pose proof (bounded_app _ _ _ _ HB') as [By _].
  assert (Mx : forall l a, bounded_rows p B l -> (a < p)%nat -> Rabs (ewa_mean r nb l a) <= B) by (intros; now apply (mean_B p)).
  split.
  - intros i Hi. rewrite mean_forgets by auto. rewrite Rabs_mult, (Rabs_right ((1 - r) ^ length zs)) by (apply Rle_ge, pow_le; lra). rewrite Rmult_comm. apply Rmult_le_compat_r; [apply pow_le; lra|].
    apply abs_diff; auto.
  - intros i Hi. pose proof (products_forget r nb (fun l a _ => innov_var r nb l a) i i xs ys (innov_absorbs r nb i) Hx Hy zs Hz) as K. cbv beta zeta in K. rewrite K.
    destruct zs as [|z zs]; [congruence|]. cbn [length Nat.sub]. rewrite Nat.sub_0_r.
    apply (forget_bound r); auto; try (apply (innov_var_bounded p); auto); try (apply abs_diff; auto).
Qed.
(** EmpiricalCovariance does not forget: the means of two histories of n rows followed by the same k rows differ by n/(n+k) of what they differed by. *)
Theorem C85_empirical_remembers p diff rows rows' xs ys zs : xs <> [] -> length ys = length xs ->
  observes p diff rows (xs ++ zs) -> observes p diff rows' (ys ++ zs) ->
  exists o o' m m', fitted_on (C := Empirical) (mkEmpP diff) rows o /\ fitted_on (C := Empirical) (mkEmpP diff) rows' o' /\
    location_ o = Ok (fv p m) /\ location_ o' = Ok (fv p m') /\
    (forall i, m i - m' i = INR (length xs) / INR (length xs + length zs) * (mean_of xs i - mean_of ys i)).
Proof.
  intros Hx Hl Ho Ho'.
  assert (Ny : ys <> []) by (intros ->; destruct xs; [congruence|discriminate]).
  assert (N : forall l : list obs, l <> [] -> (l ++ zs)%list <> []) by (intros l H E; apply app_eq_nil in E; tauto).
  destruct (Empirical_run p diff rows (xs ++ zs) Ho (N _ Hx)) as (o & E1 & _ & E3 & _).
  destruct (Empirical_run p diff rows' (ys ++ zs) Ho' (N _ Ny)) as (o' & F1 & _ & F3 & _).
  exists o, o'. do 2 eexists. split; [exact E1|]. split; [exact F1|]. split; [exact E3|]. split; [exact F3|].
  intros i. unfold mean_of. rewrite !map_app, !lsum_app, !app_length, Hl.
  assert (INR (length xs) <> 0) by (apply not_0_INR; destruct xs; [congruence|simpl; lia]).
  assert (INR (length xs + length zs) <> 0) by (apply not_0_INR; destruct xs; [congruence|simpl; lia]). field. auto.
Qed.

(** Witness: r = 1/2, five zeros against five ones, then one zero *)
Example C85_witness : let xs := repeat (fun _ : nat => 0) 5 in let ys := repeat (fun _ : nat => 1) 5 in let zs := [fun _ : nat => 0] in
  (burn_len (1 / 2) <= length xs)%nat /\ (burn_len (1 / 2) <= length ys)%nat /\ bounded_rows 2 1 (xs ++ zs) /\ bounded_rows 2 1 (ys ++ zs).
Proof.
  assert (B : burn_len (1 / 2) = 5%nat).
  { unfold burn_len. replace (- (1 / (1 / 2))) with (IZR (-2)) by (simpl; lra).
    assert (E : up (IZR (-2)) = (-1)%Z). { symmetry. apply tech_up; simpl; lra. } rewrite E. reflexivity. }
  cbv zeta. rewrite B. repeat split; try (simpl; lia);
  intros x i Hx _; simpl in Hx; repeat destruct Hx as [<-|Hx]; try contradiction; apply Rabs_le; lra.
Qed.

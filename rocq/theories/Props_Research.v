(** * C87, C89: the scalar two-block model behind the gamma-Schur likelihood (research/) *)
From Coq Require Import Reals ZArith List Lia Lra Arith Bool.
From Verif Require Import Num Numpy ListLemmas RMat LinSpec Fin GaussSpec GaussReal ScoreReal ResearchModel.
Import ListNotations.
Local Open Scope R_scope.

(** [np.log] on positive arguments *)
Definition is_log (log : NumX -> NumX) : Prop := forall x, 0 < x -> log (Fin x) = Fin (ln x).
Lemma is_log_exists : exists log, is_log log.
Proof. exists (fun x => match x with Fin r => Fin (ln r) | y => y end). intros x _. reflexivity. Qed.

Lemma mhalf_fin : @mhalf NumX = Fin (- (1 / 2)).
Proof. unfold mhalf. rewrite lit5. reflexivity. Qed.
Lemma minus_inf_x : @minus_inf NumX = NInf.
Proof. unfold minus_inf. cbn. unfold Reqb. destruct (Req_EM_T 0 0); [|lra]. unfold Rltb. destruct (Rlt_dec 0 (-1)); [lra|]. destruct (Rlt_dec (-1) 0); [reflexivity|lra]. Qed.

(** ln x + s/x >= ln s + 1 with equality only at x = s *)
Lemma ln_gibbs x s : 0 < x -> 0 < s -> ln s + 1 <= ln x + s / x /\ (ln x + s / x = ln s + 1 -> x = s).
Proof.
  intros Hx Hs. assert (Hq : 0 < s / x) by (apply Rdiv_lt_0_compat; auto).
  assert (E : ln (s / x) = ln s - ln x) by (unfold Rdiv; rewrite ln_mult by (auto; now apply Rinv_0_lt_compat); rewrite ln_Rinv by auto; ring).
  pose proof (ln_le_minus _ Hq) as H. split; [lra|]. intros K. assert (K1 : s / x = 1) by (apply ln_eq_minus; auto; lra).
  apply (Rmult_eq_reg_r (/ x)); [|apply Rinv_neq_0_compat; lra]. rewrite Rinv_r by lra. unfold Rdiv in K1. lra.
Qed.

(** The population value: expected log-density (constants dropped) of x2 given x1 and of x1, under the law
    x1 ~ N(0, a), x2 = b x1 + N(0, s), of a model that predicts x1 ~ N(0, v1), x2 | x1 ~ N(beta x1, v2). *)
Definition model_score (a b s v1 beta v2 : R) : R :=
  - (1 / 2) * (ln v1 + a / v1) + - (1 / 2) * (ln v2 + ((b - beta) * (b - beta) * a + s) / v2).
Lemma model_score_max a b s v1 beta v2 : 0 < a -> 0 < s -> 0 < v1 -> 0 < v2 ->
  model_score a b s v1 beta v2 <= model_score a b s a b s /\
  (model_score a b s v1 beta v2 = model_score a b s a b s -> v1 = a /\ beta = b /\ v2 = s).
Proof.
  intros Ha Hs H1 H2. unfold model_score.
  destruct (ln_gibbs v1 a H1 Ha) as [G1 E1]. destruct (ln_gibbs v2 s H2 Hs) as [G2 E2].
  replace (a / a) with 1 by (field; lra). replace (((b - b) * (b - b) * a + s) / s) with 1 by (field; lra).
  assert (W : 0 <= (b - beta) * (b - beta) * a / v2) by (apply Rle_mult_inv_pos; auto; apply Rmult_le_pos; [apply Rle_0_sqr|lra]).
  replace (((b - beta) * (b - beta) * a + s) / v2) with ((b - beta) * (b - beta) * a / v2 + s / v2) by (field; lra).
  split; [lra|]. intros K. assert (K1 : ln v1 + a / v1 = ln a + 1) by lra. assert (K2 : ln v2 + s / v2 = ln s + 1) by lra.
  assert (K3 : (b - beta) * (b - beta) * a / v2 = 0) by lra. split; [auto|]. split; [|auto].
  unfold Rdiv in K3. apply Rmult_integral in K3. destruct K3 as [K3|K3]; [|exfalso; apply (Rinv_neq_0_compat v2); lra].
  apply Rmult_integral in K3. destruct K3 as [K3|K3]; [|lra]. apply Rsqr_0_uniq in K3. lra.
Qed.

(** what [schur_loglik_population] returns *)
Lemma population_value log a b s g A C D : is_log log -> A <> 0 ->
  schur_loglik_population (N := NumX) log (Fin a) (Fin b) (Fin s) (Fin g) (Fin A) (Fin C) (Fin D) =
  if (Rleb A 0 || Rleb (D - g * C * C / A) 0)%bool then Ok NInf
  else Ok (Fin (model_score a b s A (g * C / A) (D - g * C * C / A))).
Proof.
  intros HL HA. unfold schur_loglik_population. rewrite !mul_fin, !py_div_fin by auto. cbn [bind]. rewrite sub_fin, n0_fin, !leb_fin.
  destruct (Rleb_spec A 0); [cbn [orb]; now rewrite minus_inf_x|]. destruct (Rleb_spec (D - g * C * C / A) 0); [cbn [orb]; now rewrite minus_inf_x|].
  cbn [orb]. rewrite sub_fin, nsq_fin, mul_fin, add_fin, py_div_fin by lra. cbn [bind].
  rewrite !HL by lra. rewrite mhalf_fin. reflexivity.
Qed.

(** ** C87 *)
(** The closed form is the only maximiser of the population gamma-Schur likelihood over every candidate, definite or not, and it predicts with the true law. *)
Theorem C87_unique_maximiser log a b s g A C D : is_log log -> 0 < a -> 0 < s -> g <> 0 -> A <> 0 ->
  exists best Ch Dh, closed_form_maximizer (N := NumX) (Fin a) (Fin b) (Fin s) (Fin g) = Ok (Fin a, Fin Ch, Fin Dh) /\
    g * Ch / a = b /\ Dh - g * Ch * Ch / a = s /\ Ch = b * a / g /\ Dh = (b * b * a + s) + b * b * a * (1 / g - 1) /\
    schur_loglik_population (N := NumX) log (Fin a) (Fin b) (Fin s) (Fin g) (Fin a) (Fin Ch) (Fin Dh) = Ok (Fin best) /\
    (schur_loglik_population (N := NumX) log (Fin a) (Fin b) (Fin s) (Fin g) (Fin A) (Fin C) (Fin D) = Ok NInf \/
     exists v, schur_loglik_population (N := NumX) log (Fin a) (Fin b) (Fin s) (Fin g) (Fin A) (Fin C) (Fin D) = Ok (Fin v) /\
       v <= best /\ (v = best <-> A = a /\ C = Ch /\ D = Dh)).
Proof.
  intros HL Ha Hs Hg HA. exists (model_score a b s a b s), (b * a / g), (s + b * b * a / g).
  assert (E1 : g * (b * a / g) / a = b) by (field; lra).
  assert (E2 : s + b * b * a / g - g * (b * a / g) * (b * a / g) / a = s) by (field; lra).
  split. { unfold closed_form_maximizer. rewrite nsq_fin, !mul_fin, !py_div_fin by auto. reflexivity. }
  split; [exact E1|]. split; [exact E2|]. split; [reflexivity|]. split; [field; lra|].
  split. { rewrite population_value by (auto; lra). rewrite E1, E2. rewrite !Rleb_false by lra. reflexivity. }
  rewrite population_value by auto. destruct (Rleb_spec A 0); [now left|]. destruct (Rleb_spec (D - g * C * C / A) 0); [now left|]. right.
  eexists. split; [reflexivity|].
  destruct (model_score_max a b s A (g * C / A) (D - g * C * C / A)) as [M1 M2]; try lra. split; [exact M1|]. split.
  - intros K. destruct (M2 K) as (K1 & K2 & K3). subst A. split; [reflexivity|].
    assert (KC : C = b * a / g) by (rewrite <- K2; field; lra). split; [exact KC|]. assert (KD : D = s + g * C * C / a) by lra. rewrite KD, KC. field. lra.
  - intros (-> & -> & ->). now rewrite E1, E2.
Qed.

(** The maximiser is a covariance matrix exactly when [spd_threshold_holds] says so, i.e. exactly above the threshold
    [_solve_spd_threshold] of the block coupling rho^2 = b^2 a / (b^2 a + s). *)
Definition coupling (a b s : R) : R := b * b * a / (b * b * a + s).
Lemma root_exists r : 0 < r < 1 -> exists t, solve_spd_threshold (N := NumX) (Fin r) = Fin t /\ 0 < t < 1 /\ t * t * (1 - r) = (1 - t) * r.
Proof.
  intros Hr. set (d := r * r - 4 * (1 - r) * - r). assert (Hd : 0 <= d) by (unfold d; nra).
  exists ((- r + sqrt d) / (2 * (1 - r))). split.
  { unfold solve_spd_threshold. rewrite n1_fin, nofZ_fin. cbn [num NumX]. rewrite sub_fin, opp_fin, nofZ_fin, !mul_fin, sub_fin. fold d. rewrite sqrt_fin by auto.
    rewrite add_fin, div_fin by lra. reflexivity. }
  assert (S0 : sqrt d * sqrt d = d) by (apply sqrt_sqrt; auto). assert (S1 : 0 <= sqrt d) by apply sqrt_pos.
  assert (S2 : r < sqrt d). { destruct (Rlt_dec r (sqrt d)); auto. exfalso. assert (sqrt d * sqrt d <= r * r) by nra. unfold d in *. nra. }
  assert (S3 : sqrt d < 2 - r). { destruct (Rlt_dec (sqrt d) (2 - r)); auto. exfalso. assert ((2 - r) * (2 - r) <= sqrt d * sqrt d) by nra. unfold d in *. nra. }
  split; [split|].
  - apply Rdiv_lt_0_compat; lra.
  - apply Rmult_lt_reg_r with (2 * (1 - r)); [lra|]. unfold Rdiv. rewrite Rmult_assoc, Rinv_l by lra. lra.
  - assert (K : (- r + sqrt d) * (- r + sqrt d) = 4 * (1 - r) * r - 2 * r * (- r + sqrt d)).
    { replace ((- r + sqrt d) * (- r + sqrt d)) with (r * r - 2 * r * sqrt d + sqrt d * sqrt d) by ring. rewrite S0. unfold d. ring. }
    replace ((- r + sqrt d) / (2 * (1 - r)) * ((- r + sqrt d) / (2 * (1 - r))) * (1 - r)) with ((- r + sqrt d) * (- r + sqrt d) / (4 * (1 - r))) by (field; lra).
    rewrite K. field. lra.
Qed.
Lemma above_root r t g : 0 < r < 1 -> 0 < t < 1 -> t * t * (1 - r) = (1 - t) * r -> 0 < g -> ((1 - g) * r < g * g * (1 - r) <-> t < g).
Proof.
  intros Hr Ht E Hg. assert (F : g * g * (1 - r) - (1 - g) * r = (g - t) * ((g + t) * (1 - r) + r)) by nra.
  assert (P : 0 < (g + t) * (1 - r) + r) by nra. split; intros H.
  - destruct (Rlt_dec t g); auto. exfalso. assert ((g - t) * ((g + t) * (1 - r) + r) <= 0) by nra. lra.
  - assert (0 < (g - t) * ((g + t) * (1 - r) + r)) by (apply Rmult_lt_0_compat; lra). lra.
Qed.
Lemma coupling_range a b s : 0 < a -> 0 < s -> b <> 0 -> 0 < coupling a b s < 1.
Proof.
  intros Ha Hs Hb. assert (0 < b * b) by nra. assert (0 < b * b * a) by (apply Rmult_lt_0_compat; auto). unfold coupling. split; [apply Rdiv_lt_0_compat; lra|].
  apply Rmult_lt_reg_r with (b * b * a + s); [lra|]. unfold Rdiv. rewrite Rmult_assoc, Rinv_l by lra. lra.
Qed.
Theorem C87_definite_above_threshold a b s g : 0 < a -> 0 < s -> b <> 0 -> 0 < g ->
  exists Ch Dh t, closed_form_maximizer (N := NumX) (Fin a) (Fin b) (Fin s) (Fin g) = Ok (Fin a, Fin Ch, Fin Dh) /\
    solve_spd_threshold (N := NumX) (Fin (coupling a b s)) = Fin t /\ 0 < t < 1 /\
    (0 < a * Dh - Ch * Ch <-> t < g) /\ (spd_threshold_holds (N := NumX) (Fin a) (Fin b) (Fin s) (Fin g) = true <-> t < g).
Proof.
  intros Ha Hs Hb Hg. set (r := coupling a b s). destruct (root_exists r (coupling_range a b s Ha Hs Hb)) as (t & E1 & E2 & E3).
  pose proof (coupling_range a b s Ha Hs Hb) as HR. fold r in HR.
  exists (b * a / g), (s + b * b * a / g), t.
  split. { unfold closed_form_maximizer. rewrite nsq_fin, !mul_fin, !py_div_fin by lra. reflexivity. }
  split; [exact E1|]. split; [exact E2|].
  assert (W : 0 < b * b * a + s) by (assert (0 <= b * b * a) by (apply Rmult_le_pos; [apply Rle_0_sqr|lra]); lra).
  assert (E : g * g * s - (1 - g) * (b * b * a) = (b * b * a + s) * (g * g * (1 - r) - (1 - g) * r)) by (unfold r, coupling; field; lra).
  assert (Q : 0 < g * g * s - (1 - g) * (b * b * a) <-> t < g).
  { rewrite <- (above_root r t g HR E2 E3 Hg). rewrite E. split; intros H.
    - destruct (Rlt_dec ((1 - g) * r) (g * g * (1 - r))); auto. exfalso. nra.
    - apply Rmult_lt_0_compat; lra. }
  split.
  - rewrite <- Q. replace (a * (s + b * b * a / g) - b * a / g * (b * a / g)) with (a / (g * g) * (g * g * s - (1 - g) * (b * b * a))) by (field; lra).
    assert (GG : 0 < a / (g * g)) by (apply Rdiv_lt_0_compat; nra). split; intros H.
    + destruct (Rlt_dec 0 (g * g * s - (1 - g) * (b * b * a))); auto. exfalso. nra.
    + apply Rmult_lt_0_compat; lra.
  - rewrite <- Q. unfold spd_threshold_holds. rewrite n1_fin, !nsq_fin, sub_fin, !mul_fin, ltb_fin. destruct (Rltb_spec ((1 - g) * (b * b * a)) (g * g * s)); split; intros; auto; try lra; try discriminate.
Qed.
(** The threshold increases strictly with the coupling, from 0; at full coupling the formula is 0/0 and gives NaN. *)
Theorem C87_threshold_monotone r r' : 0 < r < r' -> r' < 1 ->
  exists t t', solve_spd_threshold (N := NumX) (Fin r) = Fin t /\ solve_spd_threshold (N := NumX) (Fin r') = Fin t' /\ 0 < t < t' /\ t' < 1.
Proof.
  intros H1 H2. destruct (root_exists r) as (t & E1 & E2 & E3); [lra|]. destruct (root_exists r') as (t' & F1 & F2 & F3); [lra|].
  exists t, t'. split; [auto|]. split; [auto|]. assert (t < t'); [|lra].
  apply (above_root r t t'); auto; try lra.
  assert (t' * t' * (1 - r) * (1 - r') = (1 - t') * r' * (1 - r)) by (rewrite <- F3; ring).
  apply Rmult_lt_reg_r with (1 - r'); [lra|]. nra.
Qed.
Theorem C87_threshold_ends : solve_spd_threshold (N := NumX) (Fin 0) = Fin 0 /\ solve_spd_threshold (N := NumX) (Fin 1) = NaN.
Proof.
  unfold solve_spd_threshold. rewrite n1_fin, !nofZ_fin. split.
  - rewrite sub_fin, opp_fin, !mul_fin, sub_fin, sqrt_fin by lra. rewrite add_fin, div_fin by lra.
    replace (0 * 0 - 4 * (1 - 0) * - 0) with 0 by ring. rewrite sqrt_0. f_equal. field.
  - rewrite sub_fin, opp_fin, !mul_fin, sub_fin, sqrt_fin by lra. rewrite add_fin. replace (1 * 1 - 4 * (1 - 1) * - (1)) with 1 by ring. rewrite sqrt_1.
    replace (- (1) + 1) with 0 by ring. replace (2 * (1 - 1)) with 0 by ring. cbn. unfold Reqb. destruct (Req_EM_T 0 0); [|lra]. unfold Rltb. destruct (Rlt_dec 0 0); [lra|reflexivity].
Qed.

(** ** C89: gamma-star *)
(** The expected test residual when the coupling is estimated without bias and with variance V. *)
Definition expected_residual (a b s V g : R) : R := (b * b * ((1 - g) * (1 - g)) + g * g * V) * a + s.
Lemma gamma_star_fin n r : IZR (n - 2) * r + (1 - r) <> 0 ->
  gamma_star (N := NumX) n (Fin r) = Ok (Fin (IZR (n - 2) * r / (IZR (n - 2) * r + (1 - r)))).
Proof. intros H. unfold gamma_star. rewrite nofZ_fin, n1_fin, mul_fin, sub_fin, add_fin, py_div_fin by auto. reflexivity. Qed.
Lemma quad_min p q x : 0 < q -> q * (x * x) - 2 * p * x >= q * (p / q * (p / q)) - 2 * p * (p / q) /\
  (q * (x * x) - 2 * p * x = q * (p / q * (p / q)) - 2 * p * (p / q) -> x = p / q).
Proof.
  intros Hq. assert (E : q * (x * x) - 2 * p * x - (q * (p / q * (p / q)) - 2 * p * (p / q)) = q * ((x - p / q) * (x - p / q))) by (field; lra).
  assert (0 <= q * ((x - p / q) * (x - p / q))) by (apply Rmult_le_pos; [lra|apply Rle_0_sqr]). split; [lra|].
  intros K. assert (Z : q * ((x - p / q) * (x - p / q)) = 0) by lra. apply Rmult_integral in Z. destruct Z; [lra|]. apply Rsqr_0_uniq in H0. lra.
Qed.
(** for three or more samples [gamma_star] is the one minimiser of the expected residual, V = s / (a (n - 2)), and lies strictly between 0 and 1 *)
Theorem C89_optimal n a b s g : (3 <= n)%Z -> 0 < a -> 0 < s -> b <> 0 ->
  let V := s / (a * IZR (n - 2)) in
  exists gs, gamma_star (N := NumX) n (Fin (coupling a b s)) = Ok (Fin gs) /\ 0 < gs < 1 /\ gs = b * b / (b * b + V) /\
    expected_residual a b s V gs <= expected_residual a b s V g /\
    (expected_residual a b s V g = expected_residual a b s V gs -> g = gs).
Proof.
  intros Hn Ha Hs Hb V. pose proof (coupling_range a b s Ha Hs Hb) as HR. set (k := IZR (n - 2)) in *.
  assert (Hk : 1 <= k) by (unfold k; apply (IZR_le 1); lia).
  assert (B : 0 < b * b) by nra. assert (HV : 0 < V) by (apply Rdiv_lt_0_compat; [lra|apply Rmult_lt_0_compat; lra]).
  assert (Z : 0 < k * coupling a b s + (1 - coupling a b s)) by nra.
  exists (b * b / (b * b + V)). assert (W : 0 < b * b * a + s) by nra.
  assert (E : k * coupling a b s / (k * coupling a b s + (1 - coupling a b s)) = b * b / (b * b + V)).
  { unfold V, coupling. field. assert (0 < b * b * (a * k)) by (apply Rmult_lt_0_compat; nra). repeat split; try lra; nra. }
  split. { rewrite gamma_star_fin by (fold k; lra). fold k. now rewrite E. }
  split. { split; [apply Rdiv_lt_0_compat; lra|]. apply Rmult_lt_reg_r with (b * b + V); [lra|]. unfold Rdiv. rewrite Rmult_assoc, Rinv_l by lra. lra. }
  split; [reflexivity|]. destruct (quad_min (b * b) (b * b + V) g ltac:(lra)) as [Q1 Q2]. set (gs := b * b / (b * b + V)) in *. unfold expected_residual.
  assert (X : forall x, b * b * ((1 - x) * (1 - x)) + x * x * V = b * b + ((b * b + V) * (x * x) - 2 * (b * b) * x)) by (intros; ring).
  rewrite !X. split; [apply Rplus_le_compat_r, Rmult_le_compat_r; lra|].
  intros K. apply Q2. apply (Rmult_eq_reg_r a); [|lra]. lra.
Qed.
(** it increases with the sample size and with the coupling *)
Theorem C89_monotone n n' r r' : (3 <= n)%Z -> (n <= n')%Z -> 0 < r -> r <= r' -> r' < 1 ->
  exists g g', gamma_star (N := NumX) n (Fin r) = Ok (Fin g) /\ gamma_star (N := NumX) n' (Fin r') = Ok (Fin g') /\ g <= g' /\ (g = g' -> n = n' /\ r = r').
Proof.
  intros Hn Hnn Hr Hrr H1. set (k := IZR (n - 2)). set (k' := IZR (n' - 2)).
  assert (Hk : 1 <= k) by (unfold k; apply (IZR_le 1); lia). assert (Hkk : k <= k') by (unfold k, k'; apply IZR_le; lia).
  assert (Z : 0 < k * r + (1 - r)) by nra. assert (Z' : 0 < k' * r' + (1 - r')) by nra.
  exists (k * r / (k * r + (1 - r))), (k' * r' / (k' * r' + (1 - r'))). split; [apply gamma_star_fin; fold k; lra|]. split; [apply gamma_star_fin; fold k'; lra|].
  assert (E : k' * r' / (k' * r' + (1 - r')) - k * r / (k * r + (1 - r)) = ((k' - k) * r' * (1 - r) + k * (r' - r)) / ((k' * r' + (1 - r')) * (k * r + (1 - r)))) by (field; lra).
  set (den := (k' * r' + (1 - r')) * (k * r + (1 - r))) in *. assert (D : 0 < den) by (apply Rmult_lt_0_compat; auto).
  assert (A1 : 0 <= (k' - k) * r' * (1 - r)) by (apply Rmult_le_pos; [apply Rmult_le_pos; lra|lra]). assert (A2 : 0 <= k * (r' - r)) by (apply Rmult_le_pos; lra).
  split.
  - assert (0 <= ((k' - k) * r' * (1 - r) + k * (r' - r)) / den) by (apply Rle_mult_inv_pos; lra). lra.
  - intros K. assert (K0 : ((k' - k) * r' * (1 - r) + k * (r' - r)) / den = 0) by lra.
    assert (K1 : (k' - k) * r' * (1 - r) + k * (r' - r) = 0).
    { apply (Rmult_eq_reg_r (/ den)); [|apply Rinv_neq_0_compat; lra]. unfold Rdiv in K0. lra. }
    assert (r = r') by nra. subst r'. split; [|reflexivity].
    assert (k' = k) by (assert (0 < r * (1 - r)) by nra; nra). unfold k, k' in H. apply eq_IZR in H. lia.
Qed.
(** ends: nothing to trust without coupling, everything at full coupling, rho^2 itself at three samples, 1 in the limit of many samples *)
Theorem C89_ends n r : (3 <= n)%Z -> 0 < r < 1 ->
  gamma_star (N := NumX) n (Fin 0) = Ok (Fin 0) /\ gamma_star (N := NumX) n (Fin 1) = Ok (Fin 1) /\ gamma_star (N := NumX) 3 (Fin r) = Ok (Fin r) /\
  (forall eps, 0 < eps -> exists m, forall n', (m <= n')%Z -> exists g, gamma_star (N := NumX) n' (Fin r) = Ok (Fin g) /\ 1 - eps < g < 1).
Proof.
  intros Hn Hr. assert (Hk : 1 <= IZR (n - 2)) by (apply (IZR_le 1); lia).
  split; [rewrite gamma_star_fin by lra; do 2 f_equal; field; lra|]. split; [rewrite gamma_star_fin by lra; do 2 f_equal; field; lra|].
  split; [rewrite gamma_star_fin; [do 2 f_equal; simpl; field; lra|simpl; lra]|].
  intros eps He. set (c := 1 / (r * eps)). exists (Z.max 3 (up c + 2)). intros n' Hn'.
  assert (K1 : 1 <= IZR (n' - 2)) by (apply (IZR_le 1); lia). assert (K2 : c < IZR (n' - 2)).
  { apply Rlt_le_trans with (IZR (up c)); [apply (archimed c)|apply IZR_le; lia]. }
  set (k := IZR (n' - 2)) in *. assert (Z : 0 < k * r + (1 - r)) by nra. eexists. split; [apply gamma_star_fin; fold k; lra|]. fold k.
  assert (E : k * r / (k * r + (1 - r)) = 1 - (1 - r) / (k * r + (1 - r))) by (field; lra). rewrite E.
  assert (P : 0 < (1 - r) / (k * r + (1 - r))) by (apply Rdiv_lt_0_compat; lra). split; [|lra].
  assert ((1 - r) / (k * r + (1 - r)) < eps); [|lra]. apply Rmult_lt_reg_r with (k * r + (1 - r)); [lra|]. unfold Rdiv. rewrite Rmult_assoc, Rinv_l by lra.
  assert (1 < k * (r * eps)). { apply Rle_lt_trans with (c * (r * eps)); [unfold c; right; field; lra|apply Rmult_lt_compat_r; nra]. } nra.
Qed.
(** below three samples the formula is meaningless: 0 at two, an error or a value outside [0, 1] at one *)
Theorem C89_too_few_samples r : 0 < r < 1 ->
  gamma_star (N := NumX) 2 (Fin r) = Ok (Fin 0) /\ gamma_star (N := NumX) 2 (Fin 1) = Err ZeroDivisionError /\
  (gamma_star (N := NumX) 1 (Fin r) = Err ZeroDivisionError \/ exists g, gamma_star (N := NumX) 1 (Fin r) = Ok (Fin g) /\ (g < 0 \/ 1 < g)).
Proof.
  intros Hr. split; [rewrite gamma_star_fin; [do 2 f_equal; simpl; field; lra|simpl; lra]|].
  split. { unfold gamma_star. rewrite nofZ_fin, n1_fin, mul_fin, sub_fin, add_fin. replace (IZR (2 - 2) * 1 + (1 - 1)) with 0 by (simpl; ring). apply py_div_zero. }
  assert (E : IZR (1 - 2) = -1) by reflexivity.
  destruct (Req_dec (1 - 2 * r) 0) as [H|H].
  - left. unfold gamma_star. rewrite nofZ_fin, n1_fin, mul_fin, sub_fin, add_fin. replace (IZR (1 - 2) * r + (1 - r)) with 0 by (rewrite E; lra). apply py_div_zero.
  - right. eexists. split; [apply gamma_star_fin; rewrite E; lra|]. rewrite E. replace (-1 * r + (1 - r)) with (1 - 2 * r) by ring.
    destruct (Rlt_dec 0 (1 - 2 * r)).
    + left. assert (0 < r / (1 - 2 * r)) by (apply Rdiv_lt_0_compat; lra). replace (-1 * r / (1 - 2 * r)) with (- (r / (1 - 2 * r))) by (field; lra). lra.
    + right. apply Rmult_lt_reg_r with (2 * r - 1); [lra|]. replace (-1 * r / (1 - 2 * r) * (2 * r - 1)) with r by (field; lra). lra.
Qed.

(** [residual_R] over any draws: the least-squares slopes of the draws are all that matters; the average is a quadratic in gamma minimised at
    b mean / (mean^2 + variance) of the slopes. *)
Definition slope (b : R) (n : nat) (d : (nat -> R) * (nat -> R)) : R := b + rdot n (fst d) (snd d) / rdot n (fst d) (fst d).
Definition as_draw (n : nat) (d : (nat -> R) * (nat -> R)) : vec NumX * vec NumX := (fv n (fst d), fv n (snd d)).
Lemma draw_value_fin g a b s n d : 0 < rdot n (fst d) (fst d) ->
  draw_value (N := NumX) (Fin g) (Fin a) (Fin b) (Fin s) (as_draw n d) = Ok (Fin ((b - g * slope b n d) * (b - g * slope b n d) * a + s)).
Proof.
  intros H. destruct d as [x e]. cbn [fst snd] in *. unfold draw_value, as_draw. cbn [fst snd]. rewrite vscale_fin, vadd_fin. cbn [bind]. rewrite !vdot_fin. cbn [bind].
  rewrite div_fin by lra. rewrite mul_fin, sub_fin, nsq_fin, mul_fin, add_fin.
  replace (rdot n x (fun i => b * x i + e i) / rdot n x x) with (slope b n (x, e)); [reflexivity|]. unfold slope. cbn [fst snd].
  replace (rdot n x (fun i => b * x i + e i)) with (b * rdot n x x + rdot n x e); [field; lra|].
  unfold rdot. rewrite <- rsum_scal, <- rsum_plus. apply rsum_ext. intros; ring.
Qed.
Theorem C89_simulated g a b s n ds : ds <> [] -> (forall d, In d ds -> 0 < rdot n (fst d) (fst d)) ->
  let m := lmean (map (slope b n) ds) in let q := lmean (map (fun d => slope b n d * slope b n d) ds) in
  residual_R (N := NumX) (Fin g) (Fin a) (Fin b) (Fin s) (map (as_draw n) ds) = Ok (Fin ((b * b - 2 * (b * m) * g + q * (g * g)) * a + s)).
Proof.
  intros Hd Hx m q. unfold residual_R.
  assert (E : mapM (draw_value (N := NumX) (Fin g) (Fin a) (Fin b) (Fin s)) (map (as_draw n) ds) = Ok (map (fun d => Fin ((b - g * slope b n d) * (b - g * slope b n d) * a + s) : NumX) ds)).
  { clear Hd m q. induction ds as [|d r IH]; [reflexivity|]. cbn [map mapM]. rewrite draw_value_fin by (apply Hx; now left). cbn [bind]. rewrite IH by (intros; apply Hx; now right). reflexivity. }
  rewrite E. cbn [bind]. rewrite (vmean_map (fun d => (b - g * slope b n d) * (b - g * slope b n d) * a + s)) by auto. do 2 f_equal.
  rewrite (lmean_ext _ (fun d => (b * b * a + s) + ((- (2 * b * g * a)) * slope b n d + (g * g * a) * (slope b n d * slope b n d)))) by (intros; ring).
  rewrite (lmean_plus (fun _ => b * b * a + s)), (lmean_plus (fun d => (- (2 * b * g * a)) * slope b n d)), !lmean_scal, lmean_const by auto. fold m q. ring.
Qed.
Theorem C89_simulated_minimum g a b s n ds : ds <> [] -> (forall d, In d ds -> 0 < rdot n (fst d) (fst d)) -> 0 < a ->
  let m := lmean (map (slope b n) ds) in let q := lmean (map (fun d => slope b n d * slope b n d) ds) in
  0 < q -> exists R R0, residual_R (N := NumX) (Fin g) (Fin a) (Fin b) (Fin s) (map (as_draw n) ds) = Ok (Fin R) /\
    residual_R (N := NumX) (Fin (b * m / q)) (Fin a) (Fin b) (Fin s) (map (as_draw n) ds) = Ok (Fin R0) /\ R0 <= R /\ (R0 = R -> g = b * m / q).
Proof.
  intros Hd Hx Ha m q Hq. eexists. eexists. split; [apply (C89_simulated g a b s n ds Hd Hx)|]. split; [apply (C89_simulated (b * m / q) a b s n ds Hd Hx)|]. fold m q.
  destruct (quad_min (b * m) q g Hq) as [Q1 Q2]. split.
  - apply Rplus_le_compat_r, Rmult_le_compat_r; lra.
  - intros K. apply Q2. apply (Rmult_eq_reg_r a); [|lra]. lra.
Qed.
(** [_ab_s_from] realises the coupling it is asked for *)
Theorem C89_parametrisation r s : 0 <= r < 1 -> 0 < s ->
  exists b, ab_s_from (N := NumX) (Fin r) (Fin s) = Ok (Fin 1, Fin b, Fin s) /\ 0 <= b /\ coupling 1 b s = r.
Proof.
  intros Hr Hs. assert (P : 0 <= r / (1 - r) * s) by (apply Rmult_le_pos; [apply Rle_mult_inv_pos; lra|lra]).
  exists (sqrt (r / (1 - r) * s)). split.
  { unfold ab_s_from. rewrite n1_fin, sub_fin, py_div_fin by lra. cbn [bind]. rewrite mul_fin, sqrt_fin by auto. reflexivity. }
  split; [apply sqrt_pos|]. unfold coupling. rewrite sqrt_sqrt by auto.
  replace (r / (1 - r) * s * 1 + s) with (s / (1 - r)) by (field; lra). field. lra.
Qed.
Example C87_C89_witness : exists log, is_log log /\
  (exists best, schur_loglik_population (N := NumX) log (Fin 1) (Fin (4/5)) (Fin (1/2)) (Fin (7/10)) (Fin 1) (Fin (8/7)) (Fin (99/70)) = Ok (Fin best)) /\
  gamma_star (N := NumX) 20 (Fin (1/2)) = Ok (Fin (18/19)).
Proof.
  destruct is_log_exists as [log HL]. exists log. split; [exact HL|]. split.
  - destruct (C87_unique_maximiser log 1 (4/5) (1/2) (7/10) 1 0 1 HL) as (best & Ch & Dh & _ & _ & _ & E1 & E2 & E3 & _); try lra.
    exists best. rewrite <- E3. repeat f_equal; lra.
  - rewrite gamma_star_fin; [do 2 f_equal; simpl; field|simpl; lra].
Qed.

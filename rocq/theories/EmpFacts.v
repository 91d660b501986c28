(** * Consequences of the closed forms: ranges, affine maps, positive semidefiniteness *)
From Coq Require Import Reals ZArith String List Lia Lra Arith Bool Permutation.
From Verif Require Import Num Numpy PyVal LinalgModel StateModel BaseModel Estimators
  Spec ListLemmas BaseProofs RMat Fin RealSpec RunFin EwaReal.
Import ListNotations.
Local Open Scope R_scope.

(** ** Ceiling and burn-in length *)
Lemma ceil_spec x : IZR (1 - up (- x)) - 1 < x <= IZR (1 - up (- x)).
Proof. destruct (archimed (- x)) as [H1 H2]. rewrite minus_IZR. lra. Qed.
Lemma burn_len_bounds r : (5 <= burn_len r <= 250)%nat.
Proof.
  unfold burn_len. set (z := (1 - up (- (1 / r)))%Z).
  split; [apply Nat2Z.inj_le|apply Nat2Z.inj_le]; rewrite Z2Nat.id by lia; lia.
Qed.
Lemma ceil_mono x y : x <= y -> (1 - up (- x) <= 1 - up (- y))%Z.
Proof.
  intros H. pose proof (ceil_spec x). pose proof (ceil_spec y).
  set (a := (1 - up (- x))%Z) in *. set (b := (1 - up (- y))%Z) in *.
  assert (IZR a < IZR (b + 1)) by (rewrite plus_IZR; lra). apply lt_IZR in H2. lia.
Qed.
Lemma burn_len_mono r r' : 0 < r -> r <= r' -> (burn_len r' <= burn_len r)%nat.
Proof.
  intros Hr H. unfold burn_len. apply Z2Nat.inj_le; try lia.
  assert (1 / r' <= 1 / r).
  { unfold Rdiv. rewrite !Rmult_1_l. apply Rinv_le_contravar; lra. }
  pose proof (ceil_mono _ _ H0). lia.
Qed.

(** ** Ranges *)
Lemma lsum_range l lo hi : (forall a, In a l -> lo <= a <= hi) ->
  INR (length l) * lo <= lsum l <= INR (length l) * hi.
Proof.
  induction l as [|a l IH]; intros H; [simpl; lra|].
  cbn [lsum length]. rewrite S_INR. destruct (IH (fun b Hb => H b (or_intror Hb))).
  destruct (H a (or_introl eq_refl)). lra.
Qed.
Lemma mean_range xs i lo hi : xs <> [] -> (forall x, In x xs -> lo <= x i <= hi) -> lo <= mean_of xs i <= hi.
Proof.
  intros Hx H. unfold mean_of.
  pose proof (lsum_range (map (fun x : obs => x i) xs) lo hi) as K. rewrite map_length in K.
  destruct K as [K1 K2].
  { intros a Ha. apply in_map_iff in Ha. destruct Ha as (x & <- & Hx'). auto. }
  assert (0 < INR (length xs)) by (apply lt_0_INR; destruct xs; [congruence|simpl; lia]).
  split; apply Rmult_le_reg_r with (INR (length xs)); auto;
    unfold Rdiv; rewrite ?Rmult_assoc, ?Rinv_l by lra; lra.
Qed.
Lemma ewm_range r m0 xs i lo hi : 0 <= r <= 1 -> lo <= m0 i <= hi ->
  (forall x, In x xs -> lo <= x i <= hi) -> lo <= ewm r m0 xs i <= hi.
Proof.
  intros Hr H0. induction xs as [|x xs IH] using rev_ind; intros H.
  - now rewrite ewm_nil.
  - rewrite ewm_snoc. assert (H1 : lo <= ewm r m0 xs i <= hi) by (apply IH; intros; apply H, in_or_app; auto).
    assert (H2 : lo <= x i <= hi) by (apply H, in_or_app; simpl; auto). nra.
Qed.
Lemma ewa_mean_range r nb xs i lo hi : 0 <= r <= 1 -> (1 <= nb)%nat -> xs <> [] ->
  (forall x, In x xs -> lo <= x i <= hi) -> lo <= ewa_mean r nb xs i <= hi.
Proof.
  intros Hr Hn Hx H. unfold ewa_mean, burn, after. apply ewm_range; auto.
  - apply mean_range.
    + destruct xs; [congruence|]. destruct nb; [lia|]. simpl. discriminate.
    + intros x Hi. apply H. rewrite <- (firstn_skipn nb xs). apply in_or_app; auto.
  - intros x Hi. apply H. rewrite <- (firstn_skipn nb xs). apply in_or_app; auto.
Qed.

(** ** Positive semidefiniteness *)
Lemma psd_lsum {A} n (l : list A) (F : A -> rmat) : (forall a, In a l -> psd n (F a)) ->
  psd n (fun i j => lsum (map (fun a => F a i j) l)).
Proof.
  induction l as [|a l IH]; intros H; simpl; [apply psd_zero|].
  apply psd_plus; [apply H; left; auto|apply IH; intros; apply H; right; auto].
Qed.
Lemma psd_rsum n k (F : nat -> rmat) : (forall a, (a < k)%nat -> psd n (F a)) ->
  psd n (fun i j => rsum k (fun a => F a i j)).
Proof.
  induction k; intros H; simpl; [apply psd_zero|]. apply psd_plus; auto.
Qed.
Lemma psd_pcov n xs : psd n (pcov_of xs).
Proof.
  destruct xs as [|x0 xs'].
  - apply (psd_ext n (fun _ _ => 0)); [intros i j _ _; now rewrite pcov_nil|apply psd_zero].
  - set (xs := x0 :: xs').
    apply (psd_ext n (fun i j => / INR (length xs) *
              lsum (map (fun x : obs => (x i - mean_of xs i) * (x j - mean_of xs j)) xs))).
    { intros i j _ _. unfold pcov_of, Rdiv. ring. }
    apply psd_scal; [left; apply Rinv_0_lt_compat, lt_0_INR; simpl; lia|].
    apply (psd_lsum n xs (fun x i j => (x i - mean_of xs i) * (x j - mean_of xs j))).
    intros x _. apply (psd_outer n (fun i => x i - mean_of xs i)).
Qed.
Lemma psd_ewc n r m0 C0 xs : 0 <= r <= 1 -> psd n C0 -> psd n (ewc r m0 C0 xs).
Proof.
  intros Hr H0. unfold ewc. apply psd_plus.
  - apply psd_scal; auto. apply pow_le. lra.
  - apply (psd_rsum n (length xs) (fun k i j => r * (1 - r) ^ (length xs - 1 - k) * (innov r m0 xs k i * innov r m0 xs k j))).
    intros k _. apply psd_scal; [|apply psd_outer]. apply Rmult_le_pos; [lra|apply pow_le; lra].
Qed.
Lemma psd_ewa_cov n r nb xs : 0 <= r <= 1 -> psd n (ewa_cov r nb xs).
Proof. intros Hr. unfold ewa_cov. apply psd_ewc; auto. apply psd_pcov. Qed.

(** ** Affine maps *)
(** x |-> A x + b from p coordinates *)
Definition aff (p : nat) (A : rmat) (b : obs) (x : obs) : obs := fun i => rsum p (fun k => A i k * x k) + b i.
(** A C A^T *)
Definition congr (p : nat) (A C : rmat) : rmat :=
  fun i j => rsum p (fun k => rsum p (fun l => A i k * C k l * A j l)).

Lemma lsum_aff p A b xs i :
  lsum (map (fun x : obs => aff p A b x i) xs) = rsum p (fun k => A i k * lsum (map (fun x : obs => x k) xs)) + INR (length xs) * b i.
Proof.
  unfold aff. rewrite lsum_map_plus, lsum_const. f_equal.
  rewrite lsum_rsum. apply rsum_ext. intros k _. now rewrite lsum_map_scal.
Qed.
Lemma mean_aff p A b xs i : xs <> [] -> mean_of (map (aff p A b) xs) i = aff p A b (mean_of xs) i.
Proof.
  intros Hx. unfold mean_of at 1. rewrite map_map, map_length, lsum_aff.
  assert (N : INR (length xs) <> 0) by (apply not_0_INR; destruct xs; [congruence|simpl; lia]).
  unfold aff, mean_of, Rdiv. rewrite Rmult_plus_distr_r, <- rsum_scal_r.
  f_equal; [apply rsum_ext; intros; ring|field; auto].
Qed.
Lemma aff_diff p A b x y i : aff p A b x i - aff p A b y i = rsum p (fun k => A i k * (x k - y k)).
Proof.
  unfold aff. replace (rsum p (fun k => A i k * (x k - y k))) with (rsum p (fun k => A i k * x k - A i k * y k))
    by (apply rsum_ext; intros; ring). rewrite rsum_minus. ring.
Qed.
Lemma prod_sum p (a b : nat -> R) : rsum p a * rsum p b = rsum p (fun k => rsum p (fun l => a k * b l)).
Proof. rewrite <- rsum_scal_r. apply rsum_ext. intros. now rewrite rsum_scal. Qed.
Lemma congr_outer p A (u v : obs) i j :
  rsum p (fun k => A i k * u k) * rsum p (fun k => A j k * v k) = congr p A (fun k l => u k * v l) i j.
Proof. rewrite prod_sum. unfold congr. apply rsum_ext. intros k _. apply rsum_ext. intros l _. ring. Qed.
Lemma congr_ext p A C D i j : (forall k l, (k < p)%nat -> (l < p)%nat -> C k l = D k l) -> congr p A C i j = congr p A D i j.
Proof. intros H. apply rsum_ext. intros k Hk. apply rsum_ext. intros l Hl. now rewrite H. Qed.
Lemma congr_plus p A C D i j : congr p A (fun k l => C k l + D k l) i j = congr p A C i j + congr p A D i j.
Proof.
  unfold congr. rewrite <- rsum_plus. apply rsum_ext. intros k _. rewrite <- rsum_plus. apply rsum_ext. intros; ring.
Qed.
Lemma congr_scal p A c C i j : congr p A (fun k l => c * C k l) i j = c * congr p A C i j.
Proof.
  unfold congr. rewrite <- rsum_scal. apply rsum_ext. intros k _. rewrite <- rsum_scal. apply rsum_ext. intros; ring.
Qed.
Lemma congr_zero p A i j : congr p A (fun _ _ => 0) i j = 0.
Proof. unfold congr. apply rsum_zero. intros. apply rsum_zero. intros. ring. Qed.
Lemma congr_lsum {T} p A (F : T -> rmat) l i j :
  congr p A (fun k m => lsum (map (fun x => F x k m) l)) i j = lsum (map (fun x => congr p A (F x) i j) l).
Proof.
  induction l as [|x l IH]; simpl; [apply congr_zero|]. now rewrite congr_plus, IH.
Qed.
Lemma pcov_aff p A b xs i j : pcov_of (map (aff p A b) xs) i j = congr p A (pcov_of xs) i j.
Proof.
  destruct xs as [|x0 xs']; [rewrite pcov_nil; symmetry; etransitivity; [apply congr_ext; intros; apply pcov_nil|apply congr_zero]|].
  set (xs := x0 :: xs'). assert (Hx : xs <> []) by discriminate.
  unfold pcov_of at 1. rewrite map_map, map_length.
  rewrite (lsum_map_ext _ (fun x : obs => congr p A (fun k l => (x k - mean_of xs k) * (x l - mean_of xs l)) i j)).
  - rewrite <- congr_lsum. unfold Rdiv. rewrite Rmult_comm, <- congr_scal. apply congr_ext.
    intros k l _ _. unfold pcov_of, Rdiv. ring.
  - intros x _. rewrite !mean_aff by auto. rewrite !aff_diff. apply congr_outer.
Qed.
Lemma ewm_aff r p A b m0 m1 xs i : (forall i, m1 i = aff p A b m0 i) ->
  ewm r m1 (map (aff p A b) xs) i = aff p A b (ewm r m0 xs) i.
Proof.
  intros H. revert i. induction xs as [|x xs IH] using rev_ind; intros i.
  - rewrite ewm_nil, H. unfold aff. f_equal. apply rsum_ext. intros. now rewrite ewm_nil.
  - rewrite map_app. cbn [map]. rewrite ewm_snoc, IH. unfold aff.
    rewrite (rsum_ext p (fun k => A i k * ewm r m0 (xs ++ [x]) k)
               (fun k => (1 - r) * (A i k * ewm r m0 xs k) + r * (A i k * x k)))
      by (intros k _; rewrite ewm_snoc; ring).
    rewrite rsum_plus, !rsum_scal. ring.
Qed.
Lemma ewc_aff r p A b m0 m1 C0 C1 xs i j : (forall i, m1 i = aff p A b m0 i) ->
  (forall i j, C1 i j = congr p A C0 i j) ->
  ewc r m1 C1 (map (aff p A b) xs) i j = congr p A (ewc r m0 C0 xs) i j.
Proof.
  intros H HC. revert i j. induction xs as [|x xs IH] using rev_ind; intros i j.
  - cbn [map]. rewrite ewc_nil, HC. apply congr_ext. intros. now rewrite ewc_nil.
  - rewrite map_app. cbn [map]. rewrite ewc_snoc, IH, !(ewm_aff r p A b m0 m1) by auto.
    rewrite !aff_diff, congr_outer, <- !congr_scal, <- congr_plus. apply congr_ext.
    intros k l _ _. now rewrite ewc_snoc.
Qed.
Lemma burn_map nb (f : obs -> obs) xs : burn nb (map f xs) = map f (burn nb xs).
Proof. unfold burn. apply firstn_map. Qed.
Lemma after_map nb (f : obs -> obs) xs : after nb (map f xs) = map f (after nb xs).
Proof. unfold after. apply skipn_map. Qed.
Lemma burn_nonempty nb (xs : list obs) : (1 <= nb)%nat -> xs <> [] -> burn nb xs <> [].
Proof. intros. unfold burn. destruct xs; [congruence|]. destruct nb; [lia|]. discriminate. Qed.
Lemma ewa_mean_aff r nb p A b xs i : (1 <= nb)%nat -> xs <> [] ->
  ewa_mean r nb (map (aff p A b) xs) i = aff p A b (ewa_mean r nb xs) i.
Proof.
  intros Hn Hx. unfold ewa_mean. rewrite burn_map, after_map. apply ewm_aff.
  intros. apply mean_aff. now apply burn_nonempty.
Qed.
Lemma ewa_cov_aff r nb p A b xs i j : (1 <= nb)%nat -> xs <> [] ->
  ewa_cov r nb (map (aff p A b) xs) i j = congr p A (ewa_cov r nb xs) i j.
Proof.
  intros Hn Hx. unfold ewa_cov. rewrite burn_map, after_map. apply ewc_aff.
  - intros. apply mean_aff. now apply burn_nonempty.
  - intros. apply pcov_aff.
Qed.
(** Only the coordinates that are read matter. *)
Lemma ewa_ext_map r nb (f : obs -> obs) (s : nat -> nat) xs : (forall x i, f x i = x (s i)) ->
  (forall i, ewa_mean r nb (map f xs) i = ewa_mean r nb xs (s i)) /\
  (forall i j, ewa_cov r nb (map f xs) i j = ewa_cov r nb xs (s i) (s j)).
Proof.
  intros H.
  assert (E : forall xs i, mean_of (map f xs) i = mean_of xs (s i)).
  { intros ys i. unfold mean_of. rewrite map_map, map_length. f_equal. apply lsum_map_ext. auto. }
  assert (P : forall xs i j, pcov_of (map f xs) i j = pcov_of xs (s i) (s j)).
  { intros ys i j. unfold pcov_of. rewrite map_map, map_length. f_equal. apply lsum_map_ext.
    intros. now rewrite !E, !H. }
  assert (W : forall m0 m1 ys i, (forall i, m1 i = m0 (s i)) -> ewm r m1 (map f ys) i = ewm r m0 ys (s i)).
  { intros m0 m1 ys i Hm. induction ys as [|y ys IH] using rev_ind.
    - cbn [map]. now rewrite !ewm_nil.
    - rewrite map_app. cbn [map]. now rewrite !ewm_snoc, IH, H. }
  split; intros.
  - unfold ewa_mean. rewrite burn_map, after_map. apply W. intros. apply E.
  - unfold ewa_cov. rewrite burn_map, after_map.
    generalize (after nb xs). intros ys. induction ys as [|y ys IH] using rev_ind.
    + cbn [map]. now rewrite !ewc_nil, P.
    + rewrite map_app. cbn [map]. rewrite !ewc_snoc, IH, !H.
      rewrite !(W (mean_of (burn nb xs)) (mean_of (map f (burn nb xs)))) by (intros; apply E). reflexivity.
Qed.
Lemma rdiffs_aff p A b ys : Forall2 (fun x y => forall i, x i = y i)
  (rdiffs (map (aff p A b) ys)) (map (aff p A (fun _ => 0)) (rdiffs ys)).
Proof.
  induction ys as [|x ys IH]; [constructor|]. destruct ys as [|y ys]; [constructor|].
  change (Forall2 (fun x y : obs => forall i, x i = y i)
    ((fun i => aff p A b y i - aff p A b x i) :: rdiffs (map (aff p A b) (y :: ys)))
    (aff p A (fun _ => 0) (fun i => y i - x i) :: map (aff p A (fun _ => 0)) (rdiffs (y :: ys)))).
  constructor; auto. intros i. rewrite aff_diff. unfold aff. ring.
Qed.
Lemma rdiffs_map_lin (f : obs -> obs) ys : (forall x y i, f x i - f y i = f (fun k => x k - y k) i) ->
  Forall2 (fun x y => forall i, x i = y i) (rdiffs (map f ys)) (map f (rdiffs ys)).
Proof.
  intros H. induction ys as [|x ys IH]; [constructor|]. destruct ys as [|y ys]; [constructor|].
  change (Forall2 (fun x y : obs => forall i, x i = y i)
    ((fun i => f y i - f x i) :: rdiffs (map f (y :: ys)))
    (f (fun i => y i - x i) :: map f (rdiffs (y :: ys)))).
  constructor; auto.
Qed.

(** ** Correlation of a psd matrix *)
Lemma corr_bound p F i j : psd p F -> (i < p)%nat -> (j < p)%nat ->
  Rabs (F i j / (sqrt (F i i * F j j) + e12)) <= 1.
Proof.
  intros HF Hi Hj. pose proof (psd_cauchy p F i j HF Hi Hj) as K. pose proof e12_pos as E.
  assert (S : Rabs (F i j) <= sqrt (F i i * F j j)).
  { rewrite <- sqrt_Rsqr_abs. apply sqrt_le_1_alt. exact K. }
  pose proof (sqrt_pos (F i i * F j j)).
  unfold Rdiv. rewrite Rabs_mult, Rabs_inv, (Rabs_right (sqrt _ + e12)) by lra.
  apply Rmult_le_reg_r with (sqrt (F i i * F j j) + e12); [lra|].
  rewrite Rmult_assoc, Rinv_l by lra. lra.
Qed.

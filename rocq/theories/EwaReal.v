(** * The empirical / exponentially weighted state on finite streams *)
From Coq Require Import Reals ZArith String List Lia Lra Arith Bool.
From Verif Require Import Num Numpy PyVal LinalgModel StateModel BaseModel Estimators
  Spec ListLemmas BaseProofs RMat Fin RealSpec RunFin.
Import ListNotations.
Local Open Scope string_scope.
Local Open Scope R_scope.

(** ** Closed forms *)
Lemma nthobs_snoc_lt xs x j : (j < length xs)%nat -> nthobs (xs ++ [x]) j = nthobs xs j.
Proof. intros. unfold nthobs. now rewrite app_nth1. Qed.
Lemma nthobs_snoc_eq xs x : nthobs (xs ++ [x]) (length xs) = x.
Proof. unfold nthobs. now rewrite nth_middle. Qed.
Lemma firstn_snoc {A} j (xs : list A) x : (j <= length xs)%nat -> firstn j (xs ++ [x]) = firstn j xs.
Proof. intros. rewrite firstn_app. replace (j - length xs)%nat with 0%nat by lia. now rewrite firstn_O, app_nil_r. Qed.

Lemma wsum_snoc r k (f g : nat -> R) : (forall j, (j < k)%nat -> f j = g j) ->
  rsum (S k) (fun j => r * (1 - r) ^ (S k - 1 - j) * f j) =
  (1 - r) * rsum k (fun j => r * (1 - r) ^ (k - 1 - j) * g j) + r * f k.
Proof.
  intros H. cbn [rsum]. rewrite <- rsum_scal. f_equal.
  - apply rsum_ext. intros j Hj. rewrite (H j Hj). replace (S k - 1 - j)%nat with (S (k - 1 - j)) by lia. simpl. ring.
  - replace (S k - 1 - k)%nat with 0%nat by lia. simpl. ring.
Qed.

Lemma ewm_nil r m0 i : ewm r m0 [] i = m0 i.
Proof. unfold ewm. simpl. ring. Qed.
Lemma ewm_snoc r m0 xs x i : ewm r m0 (xs ++ [x]) i = (1 - r) * ewm r m0 xs i + r * x i.
Proof.
  unfold ewm. rewrite app_length. cbn [length]. rewrite Nat.add_1_r.
  rewrite (wsum_snoc r (length xs) _ (fun j => nthobs xs j i)).
  - rewrite nthobs_snoc_eq. simpl. ring.
  - intros j Hj. now rewrite nthobs_snoc_lt.
Qed.
Lemma innov_snoc_lt r m0 xs x j i : (j < length xs)%nat -> innov r m0 (xs ++ [x]) j i = innov r m0 xs j i.
Proof. intros. unfold innov. rewrite nthobs_snoc_lt, firstn_snoc by lia. reflexivity. Qed.
Lemma innov_snoc_eq r m0 xs x i : innov r m0 (xs ++ [x]) (length xs) i = x i - ewm r m0 xs i.
Proof. unfold innov. rewrite nthobs_snoc_eq, firstn_snoc by lia. now rewrite firstn_all. Qed.
Lemma ewc_nil r m0 C0 i j : ewc r m0 C0 [] i j = C0 i j.
Proof. unfold ewc. simpl. ring. Qed.
Lemma ewc_snoc r m0 C0 xs x i j :
  ewc r m0 C0 (xs ++ [x]) i j =
  (1 - r) * ewc r m0 C0 xs i j + r * ((x i - ewm r m0 xs i) * (x j - ewm r m0 xs j)).
Proof.
  unfold ewc. rewrite app_length. cbn [length]. rewrite Nat.add_1_r.
  rewrite (wsum_snoc r (length xs) _ (fun k => innov r m0 xs k i * innov r m0 xs k j)).
  - rewrite !innov_snoc_eq. simpl. ring.
  - intros k Hk. now rewrite !innov_snoc_lt.
Qed.

Lemma mean_nil i : mean_of [] i = 0.
Proof. unfold mean_of. simpl. unfold Rdiv. ring. Qed.
Lemma mean_snoc xs x i : mean_of (xs ++ [x]) i = mean_of xs i + (x i - mean_of xs i) / INR (S (length xs)).
Proof.
  unfold mean_of. rewrite map_app, lsum_app, app_length. cbn [map lsum length]. rewrite Nat.add_1_r.
  assert (H : INR (S (length xs)) <> 0) by (apply not_0_INR; lia).
  destruct xs as [|y ys].
  - simpl. unfold Rdiv. rewrite Rinv_1. ring.
  - assert (H2 : INR (length (y :: ys)) <> 0) by (apply not_0_INR; simpl; lia).
    set (n := length (y :: ys)) in *. clearbody n. rewrite S_INR in *. field. auto.
Qed.
Lemma pcov_alt xs i j : xs <> [] ->
  pcov_of xs i j = lsum (map (fun x => x i * x j) xs) / INR (length xs) - mean_of xs i * mean_of xs j.
Proof.
  intros Hx. unfold pcov_of.
  assert (N : INR (length xs) <> 0) by (apply not_0_INR; destruct xs; simpl; [congruence|lia]).
  set (a := mean_of xs i). set (b := mean_of xs j).
  rewrite (lsum_map_ext _ (fun x => x i * x j + (- b * x i + (- a * x j + a * b)))) by (intros; ring).
  rewrite !lsum_map_plus, !lsum_map_scal, lsum_const.
  replace (lsum (map (fun x : obs => x i) xs)) with (a * INR (length xs)) by (unfold a, mean_of; field; auto).
  replace (lsum (map (fun x : obs => x j) xs)) with (b * INR (length xs)) by (unfold b, mean_of; field; auto).
  field. auto.
Qed.
Lemma pcov_nil i j : pcov_of [] i j = 0.
Proof. unfold pcov_of. simpl. unfold Rdiv. ring. Qed.
Lemma pcov_snoc xs x i j :
  pcov_of (xs ++ [x]) i j =
  pcov_of xs i j * INR (length xs) / INR (S (length xs))
  + (x i - mean_of xs i) * ((x j - mean_of (xs ++ [x]) j) / INR (S (length xs))).
Proof.
  rewrite pcov_alt by (destruct xs; discriminate).
  rewrite map_app, lsum_app, app_length. cbn [map lsum length]. rewrite Nat.add_1_r.
  rewrite !mean_snoc.
  assert (N1 : INR (S (length xs)) <> 0) by (apply not_0_INR; lia).
  destruct xs as [|y xs].
  - rewrite pcov_nil, !mean_nil. simpl. field.
  - rewrite pcov_alt by discriminate.
    assert (N : INR (length (y :: xs)) <> 0) by (apply not_0_INR; simpl; lia).
    set (n := length (y :: xs)) in *. clearbody n. rewrite S_INR in *. field. auto.
Qed.

(** ** Abstract state: sample count, mean, covariance *)
Record ast := mkA { an : nat; am : obs; aC : rmat }.
Definition emp_step (a : ast) (x : obs) : ast :=
  let n := INR (S (an a)) in
  let m := fun i => am a i + (x i - am a i) / n in
  mkA (S (an a)) m (fun i j => aC a i j * INR (an a) / n + (x i - am a i) * ((x j - m j) / n)).
Definition ew_step (r : R) (a : ast) (x : obs) : ast :=
  mkA (S (an a)) (fun i => (1 - r) * am a i + r * x i)
      (fun i j => (1 - r) * aC a i j + r * ((x i - am a i) * (x j - am a j))).
Definition ewa_step (r : R) (nb : nat) (a : ast) (x : obs) : ast :=
  if Nat.ltb (an a) nb then emp_step a x else ew_step r a x.
Definition a_init : ast := mkA 0 (fun _ => 0) (fun _ _ => 0).

Definition emp_d (p : nat) (a : ast) : dict NumX :=
  [("n_dim", VInt p); ("n_samples", VInt (an a)); ("mean", VArr (A1 (fv p (am a))));
   ("cov", VArr (A2 (fm p p (aC a))))].
Definition ewa_d (p : nat) (r : R) (nb : nat) (a : ast) : dict NumX :=
  (emp_d p a ++ [("r", VNum (Fin r : NumX)); ("n_burn", VInt nb)])%list.

Ltac rd := cbn [getI getN getV getM getT getN_default dget String.eqb Ascii.eqb Bool.eqb bind app fst snd].

Lemma INR_S_nz n : INR (S n) <> 0.
Proof. apply not_0_INR. lia. Qed.
#[export] Hint Resolve INR_S_nz : core.

Lemma emp_update_fin p (s : dict NumX) a x :
  getI "n_samples" s = Ok (an a) -> getV "mean" s = Ok (fv p (am a)) ->
  getM "cov" s = Ok (fm p p (aC a)) -> getI "n_dim" s = Ok p ->
  emp_update s (fv p x) = Ok (emp_d p (emp_step a x)).
Proof.
  intros H1 H2 H3 H4. unfold emp_update. rewrite H1, H2, H3, H4. cbn [bind].
  rewrite vsub_fin. cbn [bind]. rewrite nofn_fin, vdivs_fin by auto. rewrite vadd_fin. cbn [bind].
  rewrite vsub_fin. cbn [bind]. rewrite vdivs_fin by auto. rewrite outer_fin.
  rewrite (mmap_fin p p _ (aC a) (fun i j => aC a i j * INR (an a) / INR (S (an a)))).
  - rewrite madd_fin. reflexivity.
  - intros i j _ _. replace (S (an a) - 1)%nat with (an a) by lia.
    rewrite nofn_fin, mul_fin. now apply div_fin.
Qed.

Lemma ewa_update_fin p r nb a x :
  ewa_update (ewa_d p r nb a) (fv p x) = Ok (ewa_d p r nb (ewa_step r nb a x)).
Proof.
  unfold ewa_update, ewa_d. unfold emp_d at 1 2 3. rd. unfold ewa_step.
  destruct (Nat.ltb (an a) nb).
  - rewrite (emp_update_fin p _ a x) by reflexivity. reflexivity.
  - unfold emp_d at 1 2 3. rd. rewrite vsub_fin. cbn [bind]. rewrite n1_fin, sub_fin, !vscale_fin, vadd_fin. cbn [bind].
    rewrite outer_fin, !mscale_fin, madd_fin. reflexivity.
Qed.

Lemma burn_fin r : r <> 0 -> ewa_burn_n (N := NumX) (Fin r) = Ok (burn_len r).
Proof. intros H. unfold ewa_burn_n. rewrite n1_fin, py_div_fin by auto. reflexivity. Qed.

Lemma ewa_init_fin p r : r <> 0 -> ewa_init (N := NumX) p (Fin r) = Ok (ewa_d p r (burn_len r) a_init).
Proof. intros H. unfold ewa_init. rewrite burn_fin by auto. reflexivity. Qed.

(** ** What the state holds after a stream *)
Lemma emp_fold xs : let a := fold_left emp_step xs a_init in
  an a = length xs /\ (forall i, am a i = mean_of xs i) /\ (forall i j, aC a i j = pcov_of xs i j).
Proof.
  cbv zeta. induction xs as [|x xs IH] using rev_ind.
  - simpl. repeat split; intros; [now rewrite mean_nil|now rewrite pcov_nil].
  - destruct IH as (I1 & I2 & I3). rewrite fold_left_app. cbn [fold_left].
    set (a := fold_left emp_step xs a_init) in *. unfold emp_step. cbn [an am aC].
    rewrite app_length, I1. cbn [length]. split; [lia|]. split.
    + intros i. rewrite mean_snoc, I2. reflexivity.
    + intros i j. rewrite pcov_snoc, mean_snoc, !I2, I3. reflexivity.
Qed.

Lemma fold_ext_step {A B} (f g : A -> B -> A) l a : (forall a b, In b l -> f a b = g a b) -> fold_left f l a = fold_left g l a.
Proof.
  revert a; induction l as [|b l IH]; intros a H; simpl; auto. rewrite H by (left; auto). apply IH. intros. apply H. now right.
Qed.

Lemma ewa_fold r nb xs : let a := fold_left (ewa_step r nb) xs a_init in
  an a = length xs /\ (forall i, am a i = ewa_mean r nb xs i) /\ (forall i j, aC a i j = ewa_cov r nb xs i j).
Proof.
  cbv zeta. induction xs as [|x xs IH] using rev_ind.
  - simpl. unfold ewa_mean, ewa_cov, burn, after. rewrite firstn_nil, skipn_nil. repeat split; intros.
    + now rewrite ewm_nil, mean_nil.
    + now rewrite ewc_nil, pcov_nil.
  - destruct IH as (I1 & I2 & I3). rewrite fold_left_app. cbn [fold_left].
    set (a := fold_left (ewa_step r nb) xs a_init) in *. unfold ewa_step. rewrite I1.
    unfold ewa_mean, ewa_cov, burn, after in *.
    destruct (Nat.ltb_spec (length xs) nb) as [Hlt|Hge].
    + rewrite firstn_all2 in I2, I3 by lia. rewrite skipn_all2 in I2, I3 by lia.
      assert (EX : forall i, am a i = mean_of xs i) by (intros i; rewrite I2; now rewrite ewm_nil).
      assert (EC : forall i j, aC a i j = pcov_of xs i j) by (intros i j; rewrite I3; now rewrite ewc_nil).
      rewrite firstn_all2 by (rewrite app_length; simpl; lia).
      rewrite skipn_all2 by (rewrite app_length; simpl; lia).
      unfold emp_step. cbn [an am aC]. rewrite app_length, I1. cbn [length]. split; [lia|]. split.
      * intros i. rewrite ewm_nil, mean_snoc, EX. reflexivity.
      * intros i j. rewrite ewc_nil, pcov_snoc, mean_snoc, !EX, EC. reflexivity.
    + rewrite firstn_app. replace (nb - length xs)%nat with 0%nat by lia. rewrite firstn_O, app_nil_r.
      rewrite skipn_app. replace (nb - length xs)%nat with 0%nat by lia. cbn [skipn].
      unfold ew_step. cbn [an am aC]. rewrite app_length, I1. cbn [length]. split; [lia|]. split.
      * intros i. rewrite ewm_snoc, I2. reflexivity.
      * intros i j. rewrite ewc_snoc, !I2, I3. reflexivity.
Qed.

Lemma an_fold_ewa r nb xs : an (fold_left (ewa_step r nb) xs a_init) = length xs.
Proof. apply ewa_fold. Qed.

(** ** The classes *)
Lemma sym_pcov xs n : sym n (pcov_of xs).
Proof. intros i j _ _. unfold pcov_of. f_equal. apply lsum_map_ext. intros; ring. Qed.
Lemma sym_ewa_cov r nb xs n : sym n (ewa_cov r nb xs).
Proof.
  intros i j Hi Hj. unfold ewa_cov, ewc. rewrite (sym_pcov (burn nb xs) n i j Hi Hj). f_equal.
  apply rsum_ext. intros; ring.
Qed.

Lemma emp_pair : diff_pair Empirical mkEmpP.
Proof. split; [reflexivity|]. repeat split; intros; try reflexivity; try discriminate. Qed.

Lemma length_S {A} (xs : list A) : xs <> [] -> exists n, length xs = S n.
Proof. destruct xs as [|x xs]; [congruence|]. exists (length xs). reflexivity. Qed.

Lemma Empirical_run p diff rows xs : observes p diff rows xs -> xs <> [] ->
  exists o, partial_fit (new (C := Empirical) (mkEmpP diff)) (In2 rows) = (o, Ok tt) /\
    n_samples_ o = Ok (length xs) /\
    location_ o = Ok (fv p (mean_of xs)) /\ covariance_ o = Ok (fm p p (pcov_of xs)) /\
    correlation_ o = cov_to_corrcoef (fm p p (pcov_of xs)) /\
    (forall L, precision_ L o = try_invert L (fm p p (pcov_of xs))).
Proof.
  intros Ho Hx. destruct (length_S xs Hx) as (n & Hn).
  destruct (emp_fold xs) as (E1 & E2 & E3).
  destruct (run_reads (C := Empirical) mkEmpP emp_pair (emp_d p) emp_step (fun _ => True) p a_init eq_refl I) with (xs := xs) (diff := diff) (rows := rows) (n := n)
    as (o & R1 & R2 & R3 & R4 & R5 & R6 & _); auto.
  - intros a x _. split; auto. cbn [c_update Empirical dict_class]. apply emp_update_fin; reflexivity.
  - cbn. unfold dict_nsamples, emp_d. rd. now rewrite E1, Hn.
  - exists o. split; [exact R1|]. rewrite Hn. split; [exact R2|].
    assert (Cv : covariance_ o = Ok (fm p p (pcov_of xs))).
    { rewrite R4. cbn [c_cov Empirical dict_class]. unfold dict_cov, emp_d. rd.
      rewrite (fm_ext p p _ (pcov_of xs)) by auto. apply to_symmetric_sym_fin. apply sym_pcov. }
    split; [|split; [exact Cv|split]].
    + rewrite R3. cbn [c_mean Empirical dict_class]. unfold dict_mean, emp_d. rd. f_equal. now apply fv_ext.
    + rewrite R5, Cv. reflexivity.
    + intros L. rewrite (R6 L eq_refl), Cv. reflexivity.
Qed.

(** Any class whose state is the EWA dict and whose update is ewa_update. *)
Lemma ewa_like_run (C : EstClass NumX) (mk : bool -> c_P C) p r diff rows xs
   (HD : diff_pair C mk) (emb : dict NumX -> c_St C) :
  c_init C (mk false) p = Ok (emb (ewa_d p r (burn_len r) a_init)) ->
  (forall a x, c_update C (mk false) (emb (ewa_d p r (burn_len r) a)) (fv p x) =
               Ok (emb (ewa_d p r (burn_len r) (ewa_step r (burn_len r) a x)))) ->
  (forall a, c_nsamples C (emb (ewa_d p r (burn_len r) a)) = Ok (an a)) ->
  observes p diff rows xs -> xs <> [] ->
  let a := mkA (length xs) (ewa_mean r (burn_len r) xs) (ewa_cov r (burn_len r) xs) in
  let s := emb (ewa_d p r (burn_len r) a) in
  exists o, partial_fit (new (mk diff)) (In2 rows) = (o, Ok tt) /\
    n_samples_ o = Ok (length xs) /\
    location_ o = c_mean C (mk false) s /\
    covariance_ o = (c <- c_cov C (mk false) s ;; to_symmetric c) /\
    correlation_ o = (c <- covariance_ o ;; cov_to_corrcoef c) /\
    (forall L, c_prec C = None -> precision_ L o = (c <- covariance_ o ;; try_invert L c)).
Proof.
  intros Hi Hu Hc Ho Hx a s. destruct (length_S xs Hx) as (n & Hn).
  pose proof (ewa_fold r (burn_len r) xs) as E. cbv zeta in E.
  set (a' := fold_left (ewa_step r (burn_len r)) xs a_init) in *. destruct E as (E1 & E2 & E3).
  assert (Es : ewa_d p r (burn_len r) a' = ewa_d p r (burn_len r) a).
  { unfold ewa_d, emp_d, a. cbn [an am aC]. rewrite E1. now rewrite (fv_ext p _ _ (fun i _ => E2 i)), (fm_ext p p _ _ (fun i j _ _ => E3 i j)). }
  destruct (run_reads mk HD (fun a => emb (ewa_d p r (burn_len r) a)) (ewa_step r (burn_len r)) (fun _ => True) p a_init Hi I)
    with (xs := xs) (diff := diff) (rows := rows) (n := n) as (o & R1 & R2 & R3 & R4 & R5 & R6 & _); auto.
  - fold a'. rewrite Hc, E1, Hn. reflexivity.
  - fold a' in R3, R4. rewrite Es in R3, R4. exists o. rewrite Hn. auto 10.
Qed.

Lemma ewa_pair r : diff_pair Ewa (mkEwaP (N := NumX) (Fin r)).
Proof. split; [reflexivity|]. repeat split; intros; try reflexivity; try discriminate. Qed.

Lemma Ewa_run p r diff rows xs : r <> 0 -> observes p diff rows xs -> xs <> [] ->
  exists o, partial_fit (new (C := Ewa) (mkEwaP (N := NumX) (Fin r) diff)) (In2 rows) = (o, Ok tt) /\
    n_samples_ o = Ok (length xs) /\
    location_ o = Ok (fv p (ewa_mean r (burn_len r) xs)) /\
    covariance_ o = Ok (fm p p (ewa_cov r (burn_len r) xs)) /\
    correlation_ o = cov_to_corrcoef (fm p p (ewa_cov r (burn_len r) xs)) /\
    (forall L, precision_ L o = try_invert L (fm p p (ewa_cov r (burn_len r) xs))).
Proof.
  intros Hr Ho Hx.
  destruct (ewa_like_run Ewa (mkEwaP (N := NumX) (Fin r)) p r diff rows xs (ewa_pair r) (fun d => d)) as (o & R1 & R2 & R3 & R4 & R5 & R6); auto.
  - cbn [c_init Ewa dict_class ewa_r]. now apply ewa_init_fin.
  - intros a x. apply ewa_update_fin.
  - exists o. split; [exact R1|]. split; [exact R2|].
    assert (Cv : covariance_ o = Ok (fm p p (ewa_cov r (burn_len r) xs))).
    { rewrite R4. cbn [c_cov Ewa dict_class]. unfold dict_cov, ewa_d, emp_d. rd. cbn [an am aC].
      apply to_symmetric_sym_fin. apply sym_ewa_cov. }
    split; [exact R3|split; [exact Cv|split]].
    + rewrite R5, Cv. reflexivity.
    + intros L. rewrite (R6 L eq_refl), Cv. reflexivity.
Qed.

(** ** Facts about the EWA recursion that many classes share *)
Lemma ewa_step_eq r nb xs x i :
  ewa_mean r nb (xs ++ [x]) i =
  if Nat.ltb (length xs) nb then ewa_mean r nb xs i + (x i - ewa_mean r nb xs i) / INR (S (length xs))
  else (1 - r) * ewa_mean r nb xs i + r * x i.
Proof.
  pose proof (ewa_fold r nb (xs ++ [x])) as E. cbv zeta in E. destruct E as (_ & E & _).
  rewrite fold_left_app in E. cbn [fold_left] in E.
  pose proof (ewa_fold r nb xs) as F. cbv zeta in F. destruct F as (F1 & F2 & _).
  rewrite <- E. set (a := fold_left (ewa_step r nb) xs a_init) in *. unfold ewa_step. rewrite F1.
  destruct (Nat.ltb (length xs) nb); unfold emp_step, ew_step; cbn [am]; rewrite ?F1, F2; reflexivity.
Qed.
Lemma ewa_cov_step r nb xs x i j :
  ewa_cov r nb (xs ++ [x]) i j =
  let m := ewa_mean r nb xs in
  if Nat.ltb (length xs) nb
  then ewa_cov r nb xs i j * INR (length xs) / INR (S (length xs))
       + (x i - m i) * ((x j - (m j + (x j - m j) / INR (S (length xs)))) / INR (S (length xs)))
  else (1 - r) * ewa_cov r nb xs i j + r * ((x i - m i) * (x j - m j)).
Proof.
  pose proof (ewa_fold r nb (xs ++ [x])) as E. cbv zeta in E. destruct E as (_ & _ & E).
  rewrite fold_left_app in E. cbn [fold_left] in E.
  pose proof (ewa_fold r nb xs) as F. cbv zeta in F. destruct F as (F1 & F2 & F3).
  rewrite <- E. set (a := fold_left (ewa_step r nb) xs a_init) in *. unfold ewa_step. rewrite F1.
  destruct (Nat.ltb (length xs) nb); unfold emp_step, ew_step; cbn [am aC]; rewrite ?F1, !F2, F3; reflexivity.
Qed.

(** * C96: the rolling evaluation completes, with finite results *)
From Coq Require Import Reals ZArith Bool String List Lia Lra Arith.
From Verif Require Import Num Numpy PyVal LinalgModel StateModel BaseModel Estimators RegistryModel ParamsModel AssessModel RecommendModel
  Spec ListLemmas RMat LinSpec RealSpec GaussSpec AssessSpec RecommendSpec Fin RunFin RunAvg EmpFacts Spectral MatAlg Det Contracts LinalgReal GaussReal ScoreReal AssessReal RecommendReal
  OosModel OosSpec Props_Params Props_Recommend Props_RecommendReal Props_Assess Props_Oos Props_OosReal.
Import ListNotations.
Local Open Scope string_scope.
Local Open Scope R_scope.

Lemma mapM_exists {A B} (f : A -> res B) (Q : A -> B -> Prop) l : (forall a, In a l -> exists b, f a = Ok b /\ Q a b) ->
  exists l', mapM f l = Ok l' /\ Forall2 Q l l'.
Proof.
  induction l as [|a l IH]; simpl; intros H; [exists []; split; [reflexivity|constructor]|].
  destruct (H a (or_introl eq_refl)) as (b & E & HQ). destruct IH as (l' & E' & F); [auto|]. rewrite E. cbn [bind]. rewrite E'. cbn [bind].
  exists (b :: l'). split; [reflexivity|now constructor].
Qed.
Lemma between_map {A B} (f : A -> B) i j l : rows_between i j (map f l) = map f (rows_between i j l).
Proof. unfold rows_between. now rewrite skipn_map, firstn_map. Qed.
Lemma between_length {A} i j (l : list A) : (j <= length l)%nat -> length (rows_between i j l) = (j - i)%nat.
Proof. intros. unfold rows_between. rewrite firstn_length, skipn_length. lia. Qed.
Definition fins (l : list R) : list NumX := map (fun x => Fin x : NumX) l.
Lemma fin_mean_sq (r : list R) : r <> [] -> vmean (N := NumX) (map nsq (fins r)) = Fin (lmean (map (fun x => x * x) r)).
Proof.
  intros Hr. unfold fins. rewrite map_map. rewrite (map_ext_in _ (fun x => Fin (x * x) : NumX)) by reflexivity. now rewrite vmean_map by auto.
Qed.
Lemma annvol_fin (l : list R) : l <> [] -> Forall (fun x => 0 <= x) l -> annvol (N := NumX) (fins l) = Fin (sqrt (252 * lmean l)).
Proof.
  intros Hl Hp. unfold annvol.
  assert (E : vmean (N := NumX) (fins l) = Fin (lmean (map (fun x => x) l))) by exact (vmean_map (fun x => x) l Hl). rewrite E, map_id. cbn.
  assert (0 <= lmean l). { rewrite <- (map_id l). apply lmean_nonneg. rewrite Forall_forall in Hp. auto. }
  unfold Rltb. destruct Rlt_dec; [nra|reflexivity].
Qed.

(** Realised variance of one window: the mean square of the portfolio's returns over the test rows *)
Definition realised_var (p : nat) (w : obs) (xs : list obs) : R := lmean (map (fun x => rdot p x w * rdot p x w) xs).
Lemma realised_fin p w xs : xs <> [] -> realised (map (fv p) xs) (fv p w) = Ok (Fin (realised_var p w xs)).
Proof.
  intros Hx. unfold realised. rewrite matvec_rows. cbn [bind]. apply f_equal.
  transitivity (vmean (N := NumX) (map nsq (fins (map (fun x => rdot p x w) xs)))); [unfold fins; now rewrite (map_map (fun x => rdot p x w))|].
  rewrite fin_mean_sq by (destruct xs; [contradiction|discriminate]). now rewrite map_map.
Qed.
Lemma realised_nonneg p w xs : 0 <= realised_var p w xs.
Proof. apply (lmean_nonneg (fun x => rdot p x w * rdot p x w)). intros; apply Rle_0_sqr. Qed.
Lemma weights_fin L p A : lawful L -> (1 <= p)%nat -> pd p A -> OosModel.gmv_weights L (fm p p A) = Ok (fv p (AssessSpec.gmv_weights p (tinv L p A))) /\ inverse p A (tinv L p A).
Proof.
  intros HL Hp HA. pose proof (tinv_inverse L HL p A Hp (proj1 HA) (pd_invertible p A HA)) as HI.
  pose proof (sum_pd p _ Hp (inverse_pd p A _ HA HI)) as HS. split; [|exact HI].
  unfold OosModel.gmv_weights. destruct (tinv_ok L HL p A Hp (proj1 HA)) as [-> _]. cbn [bind].
  rewrite fm_nrows, vones_fin, matvec_fin. cbn [bind]. rewrite vsum_fin.
  assert (E : rsum p (fun i => rdot p (tinv L p A i) (fun _ => 1)) = rsum p (fun i => rsum p (fun j => tinv L p A i j))).
  { apply rsum_ext. intros i Hi. apply rsum_ext. intros; ring. }
  rewrite E, vdivs_fin by lra. f_equal. apply fv_ext. intros i Hi. unfold AssessSpec.gmv_weights. f_equal. apply rsum_ext. intros; ring.
Qed.
Lemma equal_fin p : (1 <= p)%nat -> vdivs (N := NumX) (vones p) (nofn p) = fv p (fun _ => 1 / INR p).
Proof. intros Hp. destruct (nofn_pos p Hp) as [-> Hn]. rewrite vones_fin, vdivs_fin by lra. reflexivity. Qed.

(** When every estimator reports a positive definite covariance in every window, the evaluation completes; each fixed volatility is
    sqrt(252 mean over windows of the realised variance of the portfolio with weights cov^-1 1 / 1' cov^-1 1); the others are finite too. *)
Theorem C96_completes L fuel model p (ys : list obs) a b s : lawful L -> (1 <= p)%nat -> (1 <= a)%nat -> (1 <= b)%nat -> (1 <= s)%nat ->
  (a + b <= length ys)%nat ->
  let R := map (fv p) ys in
  let W := windows (length ys) a b s in
  forall cov : Signed NumX -> nat -> rmat,
  (forall k j, In k (signatures L fuel) -> (j < W)%nat -> fit_cov k (train_rows a s j R) = Ok (fm p p (cov k j)) /\ pd p (cov k j)) ->
  exists o w, rolling_oos L fuel model R a b s = Ok o /\ (1 <= W)%nat /\
    (forall k j, In k (signatures L fuel) -> (j < W)%nat -> exists B, inverse p (cov k j) B /\
       forall i, w k j i = rsum p (fun l => B i l) / rsum p (fun i => rsum p (fun l => B i l))) /\
    o_fixed o = map (fun k => (c_name (sg_class k),
       Fin (sqrt (252 * lmean (map (fun j => realised_var p (w k j) (test_rows a b s j ys)) (seq 0 W)))))) (signatures L fuel) /\
    o_equal o = Fin (sqrt (252 * lmean (map (fun j => realised_var p (fun _ => 1 / INR p) (test_rows a b s j ys)) (seq 0 W)))) /\
    (exists r, o_rec o = Fin r) /\ (exists r, o_oracle o = Fin r).
Proof.
  intros HL Hp Ha Hb Hs HT R0 W cov HC.
  assert (HR : nrows R0 = length ys) by (unfold R0, nrows; now rewrite map_length).
  assert (HW : (1 <= W)%nat) by (unfold W; apply (windows_spec (length ys) a b s 0); lia).
  assert (HNC : ncols R0 = p). { unfold R0, ncols. destruct ys as [|y ys']; [simpl in HT; lia|]. cbn. apply fv_length. }
  set (w := fun k j => AssessSpec.gmv_weights p (tinv L p (cov k j))).
  set (val := fun k j => realised_var p (w k j) (test_rows a b s j ys)).
  assert (Htest : forall j, (j < W)%nat -> test_rows a b s j ys <> []).
  { intros j Hj E. apply windows_spec in Hj; auto. assert (Hlen : length (test_rows a b s j ys) = b) by (unfold test_rows; rewrite between_length; lia). rewrite E in Hlen. simpl in Hlen. lia. }
  assert (Htrain : forall j, (j < W)%nat -> train_rows a s j ys <> []).
  { intros j Hj E. apply windows_spec in Hj; auto. assert (Hlen : length (train_rows a s j ys) = a) by (unfold train_rows; rewrite between_length; lia). rewrite E in Hlen. simpl in Hlen. lia. }
  assert (HWIN : forall j, (j < W)%nat -> exists wn, window_at L fuel model R0 a b (j * s) = Ok wn /\
     w_this wn = map (fun k => (est_name k, Fin (val k j) : NumX)) (ests L fuel) /\
     (exists k, In k (ests L fuel) /\ w_pick wn = Fin (val k j)) /\ (exists k, In k (ests L fuel) /\ w_oracle wn = Fin (val k j)) /\
     w_equal wn = Fin (realised_var p (fun _ => 1 / INR p) (test_rows a b s j ys))).
  { intros j Hj. unfold window_at. cbv zeta.
    assert (ET : slice (j * s + a) (j * s + a + b) R0 = map (fv p) (test_rows a b s j ys)) by apply between_map.
    assert (ETr : slice (j * s) (j * s + a) R0 = map (fv p) (train_rows a s j ys)) by apply between_map.
    rewrite (mapM_all_ok _ (fun k => (est_name k, Fin (val k j) : NumX))).
    2:{ intros k Hk. destruct (HC k j Hk Hj) as [EC HPD]. match type of EC with ?l = _ => match goal with |- context [fit_cov k ?X] => change (fit_cov k X) with l end end. rewrite EC. cbn [bind]. destruct (weights_fin L p _ HL Hp HPD) as [-> _]. cbn [bind].
      assert (ER : forall X v, X = map (fv p) (test_rows a b s j ys) -> realised X (fv p v) = Ok (Fin (realised_var p v (test_rows a b s j ys)))) by (intros X v ->; apply realised_fin; auto).
      rewrite ER by exact ET. reflexivity. }
    cbn [bind].
    destruct (C73_features L p (train_rows a s j ys) HL Hp (Htrain j Hj)) as (f & _ & _ & _ & Ef & _).
    destruct (ranking_perm L fuel model f) as (rk & Erk & P).
    unfold suggest at 1. match goal with |- context [covariance_features L (In2 ?X)] => replace (In2 (N := NumX) X) with (sample p (train_rows a s j ys)) by (unfold sample; f_equal; symmetry; exact ETr) end. rewrite Ef. cbn [bind]. rewrite Erk. cbn [bind].
    destruct rk as [|r rk]; [apply Permutation.Permutation_length in P; discriminate|]. change (py_take 1 (r :: rk)) with [r]. cbn [bind].
    assert (Hr : In (name_of r) (map est_name (ests L fuel))) by (apply name_known; apply (Permutation.Permutation_in r P); now left).
    apply in_map_iff in Hr as (kr & Hkr & Hir).
    assert (EK : key (map (fun k => (est_name k, Fin (val k j) : NumX)) (ests L fuel)) (name_of r) = Ok (Fin (val kr j) : NumX)).
    { apply key_nodup; [rewrite map_map; apply names_nodup|]. apply in_map_iff. exists kr. now rewrite Hkr. }
    rewrite EK. cbn [bind].
    assert (EM : exists k, In k (ests L fuel) /\ py_minimum (N := NumX) (map snd (map (fun k => (est_name k, Fin (val k j) : NumX)) (ests L fuel))) = Ok (Fin (val k j))).
    { assert (GM : forall l k0, (forall k, In k l -> In k (ests L fuel)) -> In k0 (ests L fuel) -> exists k, In k (ests L fuel) /\
        fold_left (py_min (N := NumX)) (map snd (map (fun k => (est_name k, Fin (val k j) : NumX)) l)) (Fin (val k0 j)) = Fin (val k j)).
      { induction l as [|k l IH]; cbn [map fold_left snd]; intros k0 Hl Hk0; [eauto|]. unfold py_min at 2. destruct nltb; apply IH; auto with *. }
      destruct (ests L fuel) as [|k1 l1] eqn:EE; [discriminate|]. cbn [map snd py_minimum]. destruct (GM l1 k1) as (k & Hk & Ek); auto with *.
      exists k. split; [exact Hk|]. now rewrite Ek. }
    destruct EM as (km & Hkm & EM). rewrite EM. cbn [bind]. rewrite HNC, equal_fin by auto.
    assert (ER : forall X v, X = map (fv p) (test_rows a b s j ys) -> realised X (fv p v) = Ok (Fin (realised_var p v (test_rows a b s j ys)))) by (intros X v ->; apply realised_fin; auto).
    rewrite ER by exact ET. cbn [bind].
    eexists. split; [reflexivity|]. cbn [w_this w_pick w_oracle w_equal]. eauto 10. }
  destruct (mapM_exists (window_at L fuel model R0 a b) (fun t wn => exists j, (j < W)%nat /\ t = (j * s)%nat /\
     w_this wn = map (fun k => (est_name k, Fin (val k j) : NumX)) (ests L fuel) /\
     (exists k, In k (ests L fuel) /\ w_pick wn = Fin (val k j)) /\ (exists k, In k (ests L fuel) /\ w_oracle wn = Fin (val k j)) /\
     w_equal wn = Fin (realised_var p (fun _ => 1 / INR p) (test_rows a b s j ys))) (map (fun j => (j * s)%nat) (seq 0 W))) as (ws & Ews & F).
  { intros t Ht. apply in_map_iff in Ht as (j & <- & Hj). apply in_seq in Hj. destruct (HWIN j) as (wn & E & H); [lia|]. exists wn. split; [exact E|]. exists j. split; [lia|]. auto. }
  assert (FN : Forall2 (fun j wn => w_this wn = map (fun k => (est_name k, Fin (val k j) : NumX)) (ests L fuel) /\
     (exists k, In k (ests L fuel) /\ w_pick wn = Fin (val k j)) /\ (exists k, In k (ests L fuel) /\ w_oracle wn = Fin (val k j)) /\
     w_equal wn = Fin (realised_var p (fun _ => 1 / INR p) (test_rows a b s j ys))) (seq 0 W) ws).
  { clear -F Hs. revert ws F. generalize (seq 0 W). induction l as [|j l IH]; cbn [map]; intros ws F; inversion F; subst; constructor; auto.
    destruct H1 as (j' & _ & Ej & H). assert (j = j') by nia. subst j'. exact H. }
  clear F. unfold rolling_oos. destruct (Nat.eqb_spec s 0) as [|_]; [lia|]. rewrite HR, starts_len by lia. fold W. rewrite Ews. cbn [bind].
  assert (HKEY : forall k, In k (ests L fuel) -> mapM (fun wn => key (w_this wn) (est_name k)) ws = Ok (fins (map (val k) (seq 0 W)))).
  { intros k Hk. clear -FN Hk. revert ws FN. generalize (seq 0 W). induction l as [|j l IH]; intros ws FN; inversion FN; subst; [reflexivity|].
    cbn [mapM map]. destruct H1 as (-> & _).
    assert (EK : key (map (fun k => (est_name k, Fin (val k j) : NumX)) (ests L fuel)) (est_name k) = Ok (Fin (val k j) : NumX)).
    { apply key_nodup; [rewrite map_map; apply names_nodup|]. apply in_map_iff. now exists k. }
    rewrite EK. cbn [bind]. rewrite (IH _ H3). reflexivity. }
  assert (Hne : forall (f : nat -> R), map f (seq 0 W) <> []) by (intros f; destruct W; [lia|discriminate]).
  assert (HVn : forall k j, 0 <= val k j) by (intros; apply realised_nonneg).
  rewrite (mapM_all_ok _ (fun k => (est_name k, Fin (sqrt (252 * lmean (map (val k) (seq 0 W)))) : NumX))).
  2:{ intros k Hk. rewrite HKEY by auto. cbn [bind]. rewrite annvol_fin; [reflexivity|apply Hne|]. apply Forall_forall. intros x Hx. apply in_map_iff in Hx as (j & <- & _). apply HVn. }
  cbn [bind]. eexists. exists w. split; [reflexivity|]. split; [exact HW|]. cbn [o_fixed o_rec o_oracle o_equal].
  split.
  { intros k j Hk Hj. destruct (HC k j Hk Hj) as [_ HPD]. destruct (weights_fin L p _ HL Hp HPD) as [_ HI]. eexists. split; [exact HI|]. reflexivity. }
  split; [reflexivity|].
  assert (GR : forall (pr : window (N := NumX) -> NumX), (Forall2 (fun j wn => exists k, pr wn = Fin (val k j)) (seq 0 W) ws) -> exists r, annvol (map pr ws) = Fin r).
  { intros pr FP. assert (exists l, map pr ws = fins l /\ length l = W /\ Forall (fun x => 0 <= x) l) as (l & El & Hl & Hl').
    { clear -FP HVn. assert (HH : length ws = W -> exists l, map pr ws = fins l /\ length l = W /\ Forall (fun x => 0 <= x) l).
      { intros HWs. rewrite <- HWs. clear HWs. induction FP as [|j wn js ws [k Hk] FP IH]; [exists []; split; [reflexivity|]; split; [reflexivity|constructor]|].
        destruct IH as (l & E1 & E2 & E3). exists (val k j :: l). cbn [map length]. rewrite Hk, E1, E2. split; [reflexivity|]. split; [reflexivity|]. constructor; auto. }
      apply HH. clear -FP. assert (X : length ws = length (seq 0 W)) by (induction FP; simpl; auto). now rewrite seq_length in X. }
    rewrite El, annvol_fin; [eauto| |exact Hl']. intros ->. simpl in Hl. lia. }
  split; [|split].
  - assert (EQ : map w_equal ws = fins (map (fun j => realised_var p (fun _ => 1 / INR p) (test_rows a b s j ys)) (seq 0 W))).
    { clear -FN. revert ws FN. generalize (seq 0 W). induction l as [|j l IH]; intros ws FN; inversion FN; subst; [reflexivity|].
      cbn [map]. destruct H1 as (_ & _ & _ & E1). rewrite E1, (IH _ H3). reflexivity. }
    rewrite EQ, annvol_fin; [reflexivity|apply Hne|]. apply Forall_forall. intros x Hx. apply in_map_iff in Hx as (j & <- & _). apply realised_nonneg.
  - apply GR. clear -FN. induction FN as [|j wn js ws (_ & (k & _ & Hk) & _) FN IH]; constructor; eauto.
  - apply GR. clear -FN. induction FN as [|j wn js ws (_ & _ & (k & _ & Hk) & _) FN IH]; constructor; eauto.
Qed.

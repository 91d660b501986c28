(** * C86: parameters are not checked; which values are safe *)
From Coq Require Import Reals ZArith String List Lia Lra Arith Bool.
From Verif Require Import Num Numpy PyVal LinalgModel StateModel BaseModel Estimators
  Spec ListLemmas BaseProofs RMat LinSpec Fin RealSpec RunFin EwaReal RunAvg EmpFacts Props_Emp ShrinkReal Props_Shrink MomentReal Props_Moment Props_CondReal Props_Forget Props_Improper LinalgReal.
Import ListNotations.
Local Open Scope string_scope.
Local Open Scope R_scope.

(** With parameters [P], every stream of finite rows is accepted and leaves a symmetric positive semidefinite covariance_ *)
Definition always_psd {C : EstClass NumX} (P : bool -> c_P C) (p : nat) : Prop :=
  forall diff rows xs, observes p diff rows xs -> xs <> [] -> exists o, fitted_on (P diff) rows o /\ psd_cov p o.

(** ** A stream whose variance after the burn-in has the sign of (1-r) c + r t^2, for any t *)
Definition spike (nb : nat) : list obs := (fun _ => 1) :: repeat (fun _ => 0) (nb - 1).
Lemma spike_length nb : (1 <= nb)%nat -> length (spike nb) = nb.
Proof. intros H. unfold spike. simpl. rewrite repeat_length. lia. Qed.
Lemma lsum_repeat0 {A} (f : A -> R) a n : f a = 0 -> lsum (map f (repeat a n)) = 0.
Proof. intros H. induction n; simpl; auto. rewrite H, IHn. ring. Qed.
Lemma spike_cov r nb : (2 <= nb)%nat -> 0 < ewa_cov r nb (spike nb) 0%nat 0%nat.
Proof.
  intros H. unfold ewa_cov, burn, after. rewrite firstn_all2 by (rewrite spike_length; lia). rewrite skipn_all2 by (rewrite spike_length; lia). rewrite ewc_nil.
  rewrite pcov_alt by discriminate. unfold mean_of. rewrite spike_length by lia. unfold spike. cbn [map lsum]. rewrite !lsum_repeat0 by ring.
  assert (2 <= INR nb) by (replace 2 with (INR 2) by (simpl; lra); now apply le_INR). set (n := INR nb) in *.
  replace ((1 * 1 + 0) / n - (1 + 0) / n * ((1 + 0) / n)) with ((n - 1) * / (n * n)) by (field; lra).
  apply Rmult_lt_0_compat; [lra|]. apply Rinv_0_lt_compat. nra.
Qed.
Lemma spike_var r nb : (2 <= nb)%nat -> 0 < innov_var r nb (spike nb) 0%nat.
Proof.
  intros H. unfold innov_var, rw_avg, ewsum, burn_avg. rewrite spike_length by lia. rewrite Nat.sub_diag, Nat.min_id. cbn [pow rsum].
  assert (2 <= INR nb) by (replace 2 with (INR 2) by (simpl; lra); now apply le_INR).
  match goal with |- 0 < 1 * (?s / _) + 0 => assert (1 <= s) end.
  { set (g := fun pre x => dev r nb pre x 0%nat * dev r nb pre x 0%nat).
    apply Rle_trans with (stat g (spike nb) 0%nat).
    - unfold stat, g, nthobs, dev. cbn [firstn nth spike]. unfold ewa_mean, burn, after. rewrite firstn_nil, skipn_nil, ewm_nil, mean_nil. lra.
    - apply (rsum_ge_term nb (stat g (spike nb)) 0%nat); [|lia]. intros k _. apply Rle_0_sqr. }
  rewrite Rplus_0_r, Rmult_1_l. apply Rdiv_lt_0_compat; lra.
Qed.
(** for a rate outside [0, 1] some deviation makes the updated variance negative *)
Lemma bad_rate r c : 0 < c -> (r < 0 \/ 1 < r) -> exists t, (1 - r) * c + r * (t * t) < 0.
Proof.
  intros Hc [H|H].
  - exists (1 + (1 - r) * c / - r). set (t := (1 - r) * c / - r). assert (0 <= t) by (unfold t; apply Rle_mult_inv_pos; nra).
    assert (E : r * t = - ((1 - r) * c)) by (unfold t; field; lra). nra.
  - exists 0. nra.
Qed.
Lemma products_go_negative r nb (V : list obs -> rmat) : (2 <= nb)%nat -> (r < 0 \/ 1 < r) -> absorbs_products r nb V 0%nat 0%nat -> 0 < V (spike nb) 0%nat 0%nat ->
  exists x, V (spike nb ++ [x])%list 0%nat 0%nat < 0.
Proof.
  intros Hn Hr HV Hp. destruct (bad_rate r _ Hp Hr) as [t Ht].
  exists (fun _ => ewa_mean r nb (spike nb) 0%nat + t). rewrite HV by (rewrite spike_length; lia).
  replace (ewa_mean r nb (spike nb) 0%nat + t - ewa_mean r nb (spike nb) 0%nat) with t by ring. exact Ht.
Qed.
Lemma psd_diag0 p F : (1 <= p)%nat -> psd p F -> 0 <= F 0%nat 0%nat.
Proof. intros Hp H. apply (psd_diag_nonneg p); auto. Qed.

Lemma qf_le_trace p S v : psd p S -> qf p S v <= rtrace p S * rdot p v v.
Proof.
  intros H. assert (E : forall i j, (i < p)%nat -> (j < p)%nat -> v i * S i j * v j <= / 2 * (S i i * (v j * v j) + S j j * (v i * v i))).
  { intros i j Hi Hj. destruct (Nat.eq_dec i j) as [->|N]; [lra|]. destruct H as [HS HP]. pose proof (HP (fun k => if Nat.eqb k i then v j else if Nat.eqb k j then - v i else 0)) as Q.
    rewrite qf_two in Q by auto. rewrite (HS j i) in Q by auto. nra. }
  unfold qf, rtrace, rdot. rewrite <- rsum_scal_r.
  apply Rle_trans with (rsum p (fun i => rsum p (fun j => / 2 * (S i i * (v j * v j) + S j j * (v i * v i))))).
  { apply rsum_le. intros i Hi. apply rsum_le. intros j Hj. auto. }
  right. set (d := rsum p (fun i => v i * v i)).
  rewrite (rsum_ext p _ (fun i => / 2 * d * S i i + / 2 * rtrace p S * (v i * v i))).
  - rewrite rsum_plus, !rsum_scal, rsum_scal_r. unfold rtrace. fold d. field.
  - intros i _. rewrite rsum_scal, rsum_plus, rsum_scal, rsum_scal_r. unfold rtrace, d. field.
Qed.
Lemma shrinkI_qf p a S v : qf p (shrinkI p a S) v = (1 - a) * qf p S v + a * (rtrace p S / INR p) * rdot p v v.
Proof. unfold shrinkI. rewrite (qf_plus p (fun i j => (1 - a) * S i j) (fun i j => a * (rtrace p S / INR p) * rI i j)), !qf_scal, qf_rI. reflexivity. Qed.
(** ** C86 *)
(** EwaCovariance: among the non-zero rates exactly those in (0, 1] keep every covariance positive semidefinite; any other is accepted without an error and
    gives a negative variance on some stream.  (Rate 0: ZeroDivisionError at the first observation, C17.) *)
Theorem C86_ewa_rate p r : (1 <= p)%nat -> r <> 0 -> (always_psd (C := Ewa) (EWA r) p <-> 0 < r <= 1).
Proof.
  intros Hp Hr. split.
  - intros H. destruct (Rle_lt_dec r 1); [destruct (Rlt_dec 0 r); [lra|]|]; exfalso;
    (destruct (products_go_negative r (burn_len r) (ewa_cov r (burn_len r))) as [x Hx];
      [pose proof (burn_len_bounds r); lia | lra | apply ewa_absorbs | apply spike_cov; pose proof (burn_len_bounds r); lia | ]);
    set (xs := (spike (burn_len r) ++ [x])%list) in *;
    (assert (NE : xs <> []) by (unfold xs; intros E; apply app_eq_nil in E; destruct E; discriminate));
    destruct (H false (map (fv p) xs) xs (observes_plain p xs) NE) as (o & F1 & F & F2 & F3);
    destruct (Ewa_run p r false (map (fv p) xs) xs Hr (observes_plain p xs) NE) as (o' & G1 & _ & _ & G4 & _);
    unfold fitted_on in F1; unfold EWA in F1; rewrite G1 in F1; injection F1 as <-; rewrite G4 in F2; injection F2 as F2;
    apply fm_meq_inv in F2; specialize (F2 0%nat 0%nat ltac:(lia) ltac:(lia)); pose proof (psd_diag0 p F Hp F3); lra.
  - intros H diff rows xs Ho Hx. apply (C18_ewa_psd p r diff rows xs); auto.
Qed.
Theorem C86_diagonal_rate p r : (1 <= p)%nat -> r <> 0 -> (always_psd (C := Diagonal) (EWA r) p <-> 0 < r <= 1).
Proof.
  intros Hp Hr. split.
  - intros H. destruct (Rle_lt_dec r 1); [destruct (Rlt_dec 0 r); [lra|]|]; exfalso;
    (destruct (products_go_negative r (burn_len r) (fun l a _ => innov_var r (burn_len r) l a)) as [x Hx];
      [pose proof (burn_len_bounds r); lia | lra | apply innov_absorbs | apply spike_var; pose proof (burn_len_bounds r); lia | ]);
    set (xs := (spike (burn_len r) ++ [x])%list) in *;
    (assert (NE : xs <> []) by (unfold xs; intros E; apply app_eq_nil in E; destruct E; discriminate));
    destruct (H false (map (fv p) xs) xs (observes_plain p xs) NE) as (o & F1 & F & F2 & F3);
    destruct (Diagonal_run p r false (map (fv p) xs) xs Hr (observes_plain p xs) NE) as (o' & G1 & _ & _ & G4 & _);
    unfold fitted_on in F1; unfold EWA in F1; rewrite G1 in F1; injection F1 as <-; rewrite G4 in F2; injection F2 as F2;
    apply fm_meq_inv in F2; specialize (F2 0%nat 0%nat ltac:(lia) ltac:(lia)); unfold rdiag in F2; rewrite Nat.eqb_refl in F2; pose proof (psd_diag0 p F Hp F3);
    change (diag_var r xs 0%nat) with (innov_var r (burn_len r) xs 0%nat) in F2; cbv beta in Hx; lra.
  - intros H diff rows xs Ho Hx. apply (C18_diagonal_psd p r diff rows xs); auto.
Qed.
(** ShrunkCovariance with identity target, p >= 2 variables: exactly the intensities in [0, p/(p-1)] are safe. *)
Theorem C86_shrunk_delta p r delta : (2 <= p)%nat -> 0 < r <= 1 -> 
  (always_psd (C := Shrunk) (SHR r delta "identity") p <-> 0 <= delta <= INR p / (INR p - 1)).
Proof.
  intros Hp Hr. assert (P2 : 2 <= INR p) by (replace 2 with (INR 2) by (simpl; lra); now apply le_INR).
  split.
  - intros H. set (xs := [(fun i => if Nat.eqb i 0%nat then 1 else 0); (fun i => if Nat.eqb i 0%nat then -1 else 0)] : list obs).
    assert (NE : xs <> []) by discriminate.
    destruct (H false (map (fv p) xs) xs (observes_plain p xs) NE) as (o & F1 & F & F2 & F3).
    destruct (Shrunk_identity_run p r delta false (map (fv p) xs) xs ltac:(lia) ltac:(lra) (observes_plain p xs) NE) as (o' & G1 & _ & _ & G4 & _).
    unfold fitted_on in F1. rewrite G1 in F1. injection F1 as <-. rewrite G4 in F2. injection F2 as F2. apply fm_meq_inv in F2.
    assert (ES : forall i j, ewa_cov r (burn_len r) xs i j = if (Nat.eqb i 0 && Nat.eqb j 0)%bool then 1 else 0).
    { intros i j. unfold xs. rewrite ewa_cov_two. destruct (Nat.eqb i 0), (Nat.eqb j 0); simpl; lra. }
    assert (TR : rtrace p (ewa_cov r (burn_len r) xs) = 1).
    { unfold rtrace. rewrite (rsum_ext p _ (fun i => if Nat.eqb i 0%nat then 1 else 0)); [rewrite (rsum_delta p 0%nat (fun _ => 1)) by lia; reflexivity|].
      intros i _. rewrite ES. destruct (Nat.eqb i 0); reflexivity. }
    pose proof (F2 0%nat 0%nat ltac:(lia) ltac:(lia)) as A0. pose proof (F2 1%nat 1%nat ltac:(lia) ltac:(lia)) as A1.
    unfold shrinkI in A0, A1. rewrite TR, ES in A0. rewrite TR, ES in A1. unfold rI in A0, A1. cbn [Nat.eqb andb] in A0, A1.
    pose proof (psd_diag_nonneg p F 0%nat F3 ltac:(lia)) as B0. pose proof (psd_diag_nonneg p F 1%nat F3 ltac:(lia)) as B1. rewrite <- A0 in B0. rewrite <- A1 in B1.
    split.
    + destruct (Rle_lt_dec 0 delta); auto. exfalso. assert (delta * (1 / INR p) < 0); [|lra].
      assert (0 < 1 / INR p) by (apply Rdiv_lt_0_compat; lra). nra.
    + apply Rmult_le_reg_r with ((INR p - 1) * / INR p); [apply Rmult_lt_0_compat; [lra|apply Rinv_0_lt_compat; lra]|].
      replace (INR p / (INR p - 1) * ((INR p - 1) * / INR p)) with 1 by (field; lra).
      assert (1 - delta + delta * (1 / INR p) = 1 - delta * ((INR p - 1) * / INR p)) by (field; lra). lra.
  - intros Hd diff rows xs Ho Hx.
    destruct (Shrunk_identity_run p r delta diff rows xs ltac:(lia) ltac:(lra) Ho Hx) as (o & G1 & _ & _ & G4 & _).
    exists o. split; [exact G1|]. eexists. split; [exact G4|]. set (S := ewa_cov r (burn_len r) xs).
    assert (PS : psd p S) by (apply psd_ewa_cov; lra). destruct PS as [SS PS].
    split; [apply shrinkI_sym; auto|]. intros v. rewrite shrinkI_qf.
    assert (R0 : 0 <= rdot p v v) by (apply rsum_nonneg; intros; apply Rle_0_sqr).
    assert (T0 : 0 <= rtrace p S) by (apply rsum_nonneg; intros i Hi; apply (psd_diag_nonneg p); auto; now split).
    assert (Q : qf p S v <= rtrace p S * rdot p v v) by (apply qf_le_trace; now split). specialize (PS v).
    assert (T1 : 0 <= rtrace p S * rdot p v v) by (apply Rmult_le_pos; auto). set (w := rtrace p S * rdot p v v) in *.
    replace (delta * (rtrace p S / INR p) * rdot p v v) with (delta / INR p * w) by (unfold w; field; lra).
    assert (D0 : 0 <= delta / INR p) by (apply Rle_mult_inv_pos; lra).
    destruct (Rle_lt_dec delta 1).
    + assert (0 <= (1 - delta) * qf p S v) by (apply Rmult_le_pos; lra). assert (0 <= delta / INR p * w) by (apply Rmult_le_pos; auto). lra.
    + assert ((1 - delta) * w <= (1 - delta) * qf p S v) by nra.
      assert (0 <= (1 - delta + delta / INR p) * w); [|lra]. apply Rmult_le_pos; auto.
      assert (delta * ((INR p - 1) * / INR p) <= 1).
      { apply Rle_trans with (INR p / (INR p - 1) * ((INR p - 1) * / INR p)); [apply Rmult_le_compat_r; [apply Rmult_le_pos; [lra|left; apply Rinv_0_lt_compat; lra]|lra]|].
        right. field. lra. }
      assert (1 - delta + delta / INR p = 1 - delta * ((INR p - 1) * / INR p)) by (field; lra). lra.
Qed.
Example C86_witness :
  always_psd (C := Ewa) (EWA (1/20)) 3 /\ ~ always_psd (C := Ewa) (EWA (3/2)) 3 /\ ~ always_psd (C := Diagonal) (EWA (-1/10)) 3 /\
  always_psd (C := Shrunk) (SHR (1/20) (6/5) "identity") 3 /\ ~ always_psd (C := Shrunk) (SHR (1/20) 2 "identity") 3.
Proof.
  split; [apply C86_ewa_rate; [lia|lra|lra]|]. split; [intros H; apply C86_ewa_rate in H; [lra|lia|lra]|].
  split; [intros H; apply C86_diagonal_rate in H; [lra|lia|lra]|].
  split; [apply C86_shrunk_delta; [lia|lra|simpl; lra]|]. intros H; apply C86_shrunk_delta in H; [simpl in H; lra|lia|lra].
Qed.

(** * Step equations of the running averages *)
From Coq Require Import Reals ZArith String List Lia Lra Arith Bool.
From Verif Require Import Num Numpy BaseModel Spec ListLemmas RMat Fin RealSpec EwaReal.
Import ListNotations.
Local Open Scope R_scope.

Lemma stat_snoc_lt g xs x k : (k < length xs)%nat -> stat g (xs ++ [x]) k = stat g xs k.
Proof. intros H. unfold stat. rewrite firstn_snoc by lia. now rewrite nthobs_snoc_lt. Qed.
Lemma stat_snoc_eq g xs x : stat g (xs ++ [x]) (length xs) = g xs x.
Proof. unfold stat. rewrite firstn_snoc by lia. rewrite firstn_all, nthobs_snoc_eq. reflexivity. Qed.

Lemma ewsum_snoc r nb g xs x :
  ewsum r nb g (xs ++ [x]) =
  if Nat.ltb (length xs) nb then ewsum r nb g xs else (1 - r) * ewsum r nb g xs + r * g xs x.
Proof.
  unfold ewsum. rewrite app_length. cbn [length]. destruct (Nat.ltb_spec (length xs) nb) as [H|H].
  - replace (length xs + 1 - nb)%nat with 0%nat by lia. replace (length xs - nb)%nat with 0%nat by lia. reflexivity.
  - replace (length xs + 1 - nb)%nat with (S (length xs - nb)) by lia.
    rewrite (wsum_snoc r (length xs - nb) _ (fun k => stat g xs (nb + k))).
    + replace (nb + (length xs - nb))%nat with (length xs) by lia. now rewrite stat_snoc_eq.
    + intros j Hj. apply stat_snoc_lt. lia.
Qed.
Lemma ewsum_burn r nb g xs : (length xs <= nb)%nat -> ewsum r nb g xs = 0.
Proof. intros H. unfold ewsum. replace (length xs - nb)%nat with 0%nat by lia. reflexivity. Qed.

Lemma burn_avg_snoc nb g xs x :
  burn_avg nb g (xs ++ [x]) =
  if Nat.ltb (length xs) nb then burn_avg nb g xs + (g xs x - burn_avg nb g xs) / INR (S (length xs))
  else burn_avg nb g xs.
Proof.
  unfold burn_avg. rewrite app_length. cbn [length]. destruct (Nat.ltb_spec (length xs) nb) as [H|H].
  - replace (Nat.min (length xs + 1) nb) with (S (length xs)) by lia.
    replace (Nat.min (length xs) nb) with (length xs) by lia.
    cbn [rsum]. rewrite stat_snoc_eq, (rsum_ext _ (stat g (xs ++ [x])) (stat g xs)) by (intros; now apply stat_snoc_lt).
    destruct xs as [|y ys].
    + cbn [length rsum]. simpl. unfold Rdiv. rewrite Rinv_1. ring.
    + assert (H1 : INR (S (length (y :: ys))) <> 0) by auto.
      assert (H2 : INR (length (y :: ys)) <> 0) by (apply not_0_INR; simpl; lia).
      set (n := length (y :: ys)) in *. clearbody n. rewrite S_INR in *. field. auto.
  - replace (Nat.min (length xs + 1) nb) with nb by lia. replace (Nat.min (length xs) nb) with nb by lia.
    f_equal. apply rsum_ext. intros k Hk. apply stat_snoc_lt. lia.
Qed.

Lemma rw_avg_snoc r nb g xs x :
  rw_avg r nb g (xs ++ [x]) =
  if Nat.ltb (length xs) nb then rw_avg r nb g xs + (g xs x - rw_avg r nb g xs) / INR (S (length xs))
  else (1 - r) * rw_avg r nb g xs + r * g xs x.
Proof.
  unfold rw_avg. rewrite ewsum_snoc, burn_avg_snoc, app_length. cbn [length].
  destruct (Nat.ltb_spec (length xs) nb) as [H|H].
  - replace (length xs + 1 - nb)%nat with 0%nat by lia. replace (length xs - nb)%nat with 0%nat by lia.
    rewrite (ewsum_burn r nb g xs) by lia. simpl pow. ring_simplify. unfold Rdiv. ring.
  - replace (length xs + 1 - nb)%nat with (S (length xs - nb)) by lia. simpl pow. ring.
Qed.
Lemma rw_avg_nil r nb g : rw_avg r nb g [] = 0.
Proof. unfold rw_avg, burn_avg, ewsum. simpl. unfold Rdiv. ring. Qed.

Lemma stat_ext g h xs k : (forall pre x, g pre x = h pre x) -> stat g xs k = stat h xs k.
Proof. intros H. apply H. Qed.
Lemma rw_avg_ext r nb g h xs : (forall pre x, g pre x = h pre x) -> rw_avg r nb g xs = rw_avg r nb h xs.
Proof.
  intros H. induction xs as [|x xs IH] using rev_ind; [now rewrite !rw_avg_nil|].
  rewrite !rw_avg_snoc, IH, H. reflexivity.
Qed.
Lemma rw_avg_plus r nb g h xs : rw_avg r nb (fun p x => g p x + h p x) xs = rw_avg r nb g xs + rw_avg r nb h xs.
Proof.
  induction xs as [|x xs IH] using rev_ind; [rewrite !rw_avg_nil; ring|].
  rewrite !rw_avg_snoc, IH. destruct (Nat.ltb (length xs) nb); unfold Rdiv; ring.
Qed.
Lemma rw_avg_scal r nb c g xs : rw_avg r nb (fun p x => c * g p x) xs = c * rw_avg r nb g xs.
Proof.
  induction xs as [|x xs IH] using rev_ind; [rewrite !rw_avg_nil; ring|].
  rewrite !rw_avg_snoc, IH. destruct (Nat.ltb (length xs) nb); unfold Rdiv; ring.
Qed.
Lemma inv_S_range n : 0 < / INR (S n) <= 1.
Proof.
  split; [apply Rinv_0_lt_compat, lt_0_INR; lia|].
  rewrite <- Rinv_1. apply Rinv_le_contravar; [lra|]. rewrite S_INR. pose proof (pos_INR n). lra.
Qed.
Lemma rw_avg_nonneg r nb g xs : 0 <= r <= 1 -> (forall pre x, 0 <= g pre x) -> 0 <= rw_avg r nb g xs.
Proof.
  intros Hr H. induction xs as [|x xs IH] using rev_ind; [rewrite rw_avg_nil; lra|].
  rewrite rw_avg_snoc. specialize (H xs x). destruct (Nat.ltb (length xs) nb); [|nra].
  pose proof (inv_S_range (length xs)). unfold Rdiv. nra.
Qed.
(** Averages of rank-one matrices are psd. *)
Lemma psd_rw_avg n r nb (G : list obs -> obs -> rmat) xs : 0 <= r <= 1 ->
  (forall pre x, psd n (G pre x)) -> psd n (fun i j => rw_avg r nb (fun pre x => G pre x i j) xs).
Proof.
  intros Hr H. induction xs as [|x xs IH] using rev_ind.
  - apply (psd_ext n (fun _ _ => 0)); [intros i j _ _; now rewrite rw_avg_nil|apply psd_zero].
  - destruct (Nat.ltb (length xs) nb) eqn:E.
    + apply (psd_ext n (fun i j => (1 - / INR (S (length xs))) * rw_avg r nb (fun pre x => G pre x i j) xs
                                 + / INR (S (length xs)) * G xs x i j)).
      { intros i j _ _. rewrite rw_avg_snoc, E. unfold Rdiv. ring. }
      pose proof (inv_S_range (length xs)).
      apply psd_plus; apply psd_scal; auto; lra.
    + apply (psd_ext n (fun i j => (1 - r) * rw_avg r nb (fun pre x => G pre x i j) xs + r * G xs x i j)).
      { intros i j _ _. rewrite rw_avg_snoc, E. reflexivity. }
      apply psd_plus; apply psd_scal; auto; lra.
Qed.

(** * The Gaussian likelihood of a block-diagonal covariance is the sum over the blocks *)
From Coq Require Import Reals ZArith String List Lia Lra Arith Bool.
From Verif Require Import ListLemmas RMat LinSpec RealSpec Spectral MatAlg Det GaussSpec GaussReal AssessSpec BlockDet.
Import ListNotations.
Local Open Scope R_scope.

Definition pad (a b : nat) (v : nat -> R) : nat -> R := fun i => if Nat.leb a i then v (i - a)%nat else 0.
Definition cutoff (a : nat) (v : nat -> R) : nat -> R := fun i => if Nat.leb a i then 0 else v i.
Lemma qf_pad a b A v : qf (a + b) A (pad a b v) = qf b (block_at a A) v.
Proof.
  unfold qf. rewrite rsum_split. rewrite rsum_zero.
  2:{ intros i Hi. apply rsum_zero. intros j _. unfold pad. destruct (Nat.leb_spec a i); [lia|]. ring. }
  rewrite Rplus_0_l. apply rsum_ext. intros i Hi. rewrite rsum_split, rsum_zero.
  2:{ intros j Hj. unfold pad. destruct (Nat.leb_spec a j); [lia|]. ring. }
  rewrite Rplus_0_l. apply rsum_ext. intros j Hj. unfold pad, block_at.
  destruct (Nat.leb_spec a (a + i)); [|lia]. destruct (Nat.leb_spec a (a + j)); [|lia].
  now replace (a + i - a)%nat with i by lia; replace (a + j - a)%nat with j by lia.
Qed.
Lemma qf_cutoff a b A v : qf (a + b) A (cutoff a v) = qf a A v.
Proof.
  unfold qf. rewrite rsum_split. rewrite (rsum_zero b).
  2:{ intros i Hi. apply rsum_zero. intros j _. unfold cutoff. destruct (Nat.leb_spec a (a + i)); [|lia]. ring. }
  rewrite Rplus_0_r. apply rsum_ext. intros i Hi. rewrite rsum_split, (rsum_zero b).
  2:{ intros j Hj. unfold cutoff. destruct (Nat.leb_spec a (a + j)); [|lia]. ring. }
  rewrite Rplus_0_r. apply rsum_ext. intros j Hj. unfold cutoff.
  destruct (Nat.leb_spec a i); [lia|]. destruct (Nat.leb_spec a j); [lia|]. reflexivity.
Qed.
Lemma pd_block a b A : pd (a + b) A -> pd b (block_at a A).
Proof.
  intros [H1 H2]. split; [intros i j Hi Hj; apply H1; lia|]. intros v (i & Hi & Hv). rewrite <- qf_pad. apply H2.
  exists (a + i)%nat. split; [lia|]. unfold pad. destruct (Nat.leb_spec a (a + i)); [|lia]. now replace (a + i - a)%nat with i by lia.
Qed.
Lemma pd_lead a b A : pd (a + b) A -> pd a A.
Proof.
  intros [H1 H2]. split; [intros i j Hi Hj; apply H1; lia|]. intros v (i & Hi & Hv). rewrite <- (qf_cutoff a b). apply H2.
  exists i. split; [lia|]. unfold cutoff. destruct (Nat.leb_spec a i); [lia|]. auto.
Qed.

Definition two (a : nat) (B C : rmat) : rmat := fun i j =>
  if Nat.leb a i then (if Nat.leb a j then C (i - a)%nat (j - a)%nat else 0) else (if Nat.leb a j then 0 else B i j).
Lemma mul_two a b A B C : (forall i j, (i < a)%nat -> (j < b)%nat -> A i (a + j)%nat = 0 /\ A (a + j)%nat i = 0) ->
  meq (a + b) (a + b) (rmul (a + b) A (two a B C)) (two a (rmul a A B) (rmul b (block_at a A) C)) /\
  meq (a + b) (a + b) (rmul (a + b) (two a B C) A) (two a (rmul a B A) (rmul b C (block_at a A))).
Proof.
  intros H. split; intros i j Hi Hj; unfold rmul; rewrite rsum_split; unfold two, block_at.
  - destruct (Nat.leb_spec a i) as [Li|Li]; destruct (Nat.leb_spec a j) as [Lj|Lj].
    + rewrite (rsum_zero a); [rewrite Rplus_0_l|intros k Hk; destruct (Nat.leb_spec a k); [lia|ring]].
      apply rsum_ext. intros k Hk. destruct (Nat.leb_spec a (a + k)); [|lia]. do 2 f_equal; lia.
    + rewrite !rsum_zero; [ring| |].
      * intros k Hk. destruct (Nat.leb_spec a (a + k)); [ring|lia].
      * intros k Hk. replace i with (a + (i - a))%nat by lia. destruct (H k (i - a)%nat) as [_ ->]; try lia. ring.
    + rewrite !rsum_zero; [ring| |].
      * intros k Hk. destruct (H i k) as [-> _]; try lia. ring.
      * intros k Hk. destruct (Nat.leb_spec a k); [lia|ring].
    + rewrite (rsum_zero b); [rewrite Rplus_0_r|intros k Hk; destruct (Nat.leb_spec a (a + k)); [ring|lia]].
      apply rsum_ext. intros k Hk. destruct (Nat.leb_spec a k); [lia|]. reflexivity.
  - destruct (Nat.leb_spec a i) as [Li|Li]; destruct (Nat.leb_spec a j) as [Lj|Lj].
    + rewrite (rsum_zero a); [rewrite Rplus_0_l|intros k Hk; destruct (Nat.leb_spec a k); [lia|ring]].
      apply rsum_ext. intros k Hk. destruct (Nat.leb_spec a (a + k)); [|lia]. do 2 f_equal; lia.
    + rewrite !rsum_zero; [ring| |].
      * intros k Hk. destruct (H j k) as [_ ->]; try lia. ring.
      * intros k Hk. destruct (Nat.leb_spec a k); [lia|ring].
    + rewrite !rsum_zero; [ring| |].
      * intros k Hk. destruct (Nat.leb_spec a (a + k)); [ring|lia].
      * intros k Hk. replace j with (a + (j - a))%nat by lia. destruct (H k (j - a)%nat) as [-> _]; try lia. ring.
    + rewrite (rsum_zero b); [rewrite Rplus_0_r|intros k Hk; destruct (Nat.leb_spec a (a + k)); [ring|lia]].
      apply rsum_ext. intros k Hk. destruct (Nat.leb_spec a k); [lia|]. reflexivity.
Qed.
Lemma two_I a b B C : meq a a B rI -> meq b b C rI -> meq (a + b) (a + b) (two a B C) rI.
Proof.
  intros H1 H2 i j Hi Hj. unfold two. destruct (Nat.leb_spec a i); destruct (Nat.leb_spec a j).
  - rewrite H2 by lia. unfold rI. destruct (Nat.eqb_spec (i - a) (j - a)); destruct (Nat.eqb_spec i j); try lia; reflexivity.
  - unfold rI. destruct (Nat.eqb_spec i j); [lia|reflexivity].
  - unfold rI. destruct (Nat.eqb_spec i j); [lia|reflexivity].
  - now apply H1.
Qed.
Lemma inverse_two a b A B C : (forall i j, (i < a)%nat -> (j < b)%nat -> A i (a + j)%nat = 0 /\ A (a + j)%nat i = 0) ->
  inverse a A B -> inverse b (block_at a A) C -> inverse (a + b) A (two a B C).
Proof.
  intros H [B1 B2] [C1 C2]. destruct (mul_two a b A B C H) as [M1 M2]. split.
  - eapply meq_trans; [exact M1|now apply two_I].
  - eapply meq_trans; [exact M2|now apply two_I].
Qed.
Lemma qf_two_ a b B C v : qf (a + b) (two a B C) v = qf a B v + qf b C (fun i => v (a + i)%nat).
Proof.
  unfold qf. rewrite rsum_split. f_equal; apply rsum_ext; intros i Hi; rewrite rsum_split; unfold two.
  - rewrite (rsum_zero b); [rewrite Rplus_0_r|].
    + apply rsum_ext. intros j Hj. destruct (Nat.leb_spec a i); [lia|]. destruct (Nat.leb_spec a j); [lia|]. reflexivity.
    + intros j Hj. destruct (Nat.leb_spec a i); [lia|]. destruct (Nat.leb_spec a (a + j)); [ring|lia].
  - rewrite (rsum_zero a); [rewrite Rplus_0_l|].
    + apply rsum_ext. intros j Hj. destruct (Nat.leb_spec a (a + i)); [|lia]. destruct (Nat.leb_spec a (a + j)); [|lia].
      now replace (a + i - a)%nat with i by lia; replace (a + j - a)%nat with j by lia.
    + intros j Hj. destruct (Nat.leb_spec a (a + i)); [|lia]. destruct (Nat.leb_spec a j); [lia|ring].
Qed.
Lemma loglik_two a b A Ai B C xs :
  (forall i j, (i < a)%nat -> (j < b)%nat -> A i (a + j)%nat = 0 /\ A (a + j)%nat i = 0) ->
  pd (a + b) A -> inverse (a + b) A Ai -> inverse a A B -> inverse b (block_at a A) C ->
  mean_loglik (a + b) A Ai xs = mean_loglik a A B xs + mean_loglik b (block_at a A) C (map (coords_from a) xs).
Proof.
  intros H P I IB IC. unfold mean_loglik. rewrite map_map. rewrite <- lmean_plus. apply lmean_ext. intros x _. unfold gauss_logpdf.
  pose proof (inverse_unique _ _ _ _ I (inverse_two a b A B C H IB IC)) as E.
  rewrite (qf_meq (a + b) Ai (two a B C) _ E), qf_two_, (rdet_block a b A) by (intros; now apply H).
  rewrite (ln_mult (rdet a A)); [|apply pd_det_pos; now apply (pd_lead a b)|apply pd_det_pos; now apply pd_block]. rewrite plus_INR. unfold coords_from, zero_mean. lra.
Qed.
Lemma loglik_0 A Ai xs : mean_loglik 0 A Ai xs = 0.
Proof.
  unfold mean_loglik. rewrite (lmean_ext _ (fun _ => 0)).
  - destruct xs as [|x xs]; [unfold lmean; cbn; lra|]. apply lmean_const. discriminate.
  - intros x _. unfold gauss_logpdf. rewrite (rdet_ext (B := rI)) by (intros i j Hi; lia). rewrite rdet_I, ln_1. unfold qf. cbn. lra.
Qed.
Lemma loglik_ext p A A' B B' xs : meq p p A A' -> meq p p B B' -> mean_loglik p A B xs = mean_loglik p A' B' xs.
Proof.
  intros H1 H2. unfold mean_loglik. apply lmean_ext. intros x _. unfold gauss_logpdf. now rewrite (rdet_ext H1), (qf_meq p B B' _ H2).
Qed.
(** Cut points [st 0 = 0 <= st 1 <= ... <= st m]; no correlation across a cut. *)
Lemma loglik_blocks m st A Ai inv xs : st O = O -> (forall b, (b < m)%nat -> (st b <= st (S b))%nat) ->
  (forall b i j, (b <= m)%nat -> (i < st b)%nat -> (st b <= j < st m)%nat -> A i j = 0 /\ A j i = 0) ->
  pd (st m) A -> inverse (st m) A Ai ->
  (forall b, (b < m)%nat -> inverse (st (S b) - st b) (block_at (st b) A) (inv b)) ->
  mean_loglik (st m) A Ai xs = rsum m (fun b => mean_loglik (st (S b) - st b) (block_at (st b) A) (inv b) (map (coords_from (st b)) xs)).
Proof.
  intros H0. revert Ai. induction m as [|m IH]; intros Ai Hs Hz P I HI; cbn [rsum].
  - rewrite H0. apply loglik_0.
  - pose proof (Hs m ltac:(lia)) as Hm. set (b := (st (S m) - st m)%nat). assert (E : st (S m) = (st m + b)%nat) by (unfold b; lia).
    rewrite E in *. assert (Pm : pd (st m) A) by (apply (pd_lead (st m) b); exact P).
    destruct (pd_invertible _ _ Pm) as (B & IB).
    rewrite (loglik_two (st m) b A Ai B (inv m)); auto.
    + f_equal. apply IH; auto.
      intros b' i j H1 H2 H3. apply (Hz b'); lia.
    + intros i j Hi Hj. apply (Hz m); lia.
    + specialize (HI m ltac:(lia)). rewrite E in HI. replace (st m + b - st m)%nat with b in HI by lia. exact HI.
Qed.

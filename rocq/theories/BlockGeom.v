(** * The block geometry computed by the library is that of BlockSpec *)
From Coq Require Import ZArith List Lia Arith Bool.
From Verif Require Import Num Numpy PyVal Estimators ListLemmas BlockShapes BlockSpec.
Import ListNotations.
Local Open Scope nat_scope.

Lemma start_0 p k : block_start p k 0 = 0.
Proof. reflexivity. Qed.
Lemma start_S p k b : block_start p k (S b) = block_start p k b + (p / k + if Nat.ltb b (p mod k) then 1 else 0).
Proof. unfold block_start. destruct (Nat.ltb_spec b (p mod k)); lia. Qed.
Lemma start_k p k : k <> 0 -> block_start p k k = p.
Proof.
  intros Hk. unfold block_start. pose proof (Nat.mod_upper_bound p k Hk). pose proof (Nat.div_mod p k Hk). lia.
Qed.
Lemma start_mono p k b c : b <= c -> block_start p k b <= block_start p k c.
Proof. intros H. induction H as [|c H IH]; auto. rewrite start_S. lia. Qed.
Lemma start_lt p k b : 1 <= k <= p -> block_start p k b < block_start p k (S b).
Proof. intros H. rewrite start_S. assert (1 <= p / k) by (apply Nat.div_le_lower_bound; lia). lia. Qed.
Lemma start_le_p p k b : k <> 0 -> b <= k -> block_start p k b <= p.
Proof. intros Hk Hb. rewrite <- (start_k p k Hk) at 2. now apply start_mono. Qed.

Lemma filter_all {A} (f : A -> bool) l : (forall a, In a l -> f a = true) -> filter f l = l.
Proof. induction l as [|a l IH]; intros H; simpl; auto. rewrite (H a) by (simpl; auto). f_equal. apply IH. intros. apply H. simpl; auto. Qed.
Lemma filter_none {A} (f : A -> bool) l : (forall a, In a l -> f a = false) -> filter f l = [].
Proof. induction l as [|a l IH]; intros H; simpl; auto. rewrite (H a) by (simpl; auto). apply IH. intros. apply H. simpl; auto. Qed.

Lemma seq_cut b k : b <= k -> seq 0 k = (seq 0 b ++ seq b (k - b))%list.
Proof. intros H. replace k with (b + (k - b)) at 1 by lia. now rewrite seq_app. Qed.
Lemma block_of_in p k b i : b < k -> block_start p k b <= i < block_start p k (S b) -> block_of p k i = b.
Proof.
  intros Hb Hi. unfold block_of. rewrite (seq_cut b k) by lia. rewrite filter_app, app_length.
  rewrite filter_all, seq_length, filter_none; [simpl; lia| |].
  - intros c Hc. apply in_seq in Hc. apply Nat.leb_gt. pose proof (start_mono p k (S b) (S c)). lia.
  - intros c Hc. apply in_seq in Hc. apply Nat.leb_le. pose proof (start_mono p k (S c) b). lia.
Qed.
Lemma block_exists p k i n : n <= k -> i < block_start p k n -> exists b, b < n /\ block_start p k b <= i < block_start p k (S b).
Proof.
  intros Hn. induction n as [|n IH]; intros Hi; [rewrite start_0 in Hi; lia|].
  destruct (Nat.lt_ge_cases i (block_start p k n)) as [H|H].
  - destruct IH as (b & Hb & H'); auto; [lia|]. exists b. auto.
  - exists n. auto.
Qed.
Lemma block_of_spec p k i : k <> 0 -> i < p ->
  block_of p k i < k /\ block_start p k (block_of p k i) <= i < block_start p k (S (block_of p k i)).
Proof.
  intros Hk Hi. rewrite <- (start_k p k Hk) in Hi. destruct (block_exists p k i k (le_n k) Hi) as (b & Hb & H).
  rewrite (block_of_in p k b i Hb H). auto.
Qed.

(** ** array_split *)
Definition size (p k b : nat) : nat := block_start p k (S b) - block_start p k b.
Lemma size_eq p k b : size p k b = p / k + if Nat.ltb b (p mod k) then 1 else 0.
Proof. unfold size. rewrite start_S. lia. Qed.
Lemma map_const {A B} (f : A -> B) c l : (forall a, In a l -> f a = c) -> map f l = repeat c (length l).
Proof. induction l as [|a l IH]; intros H; simpl; auto. rewrite (H a) by (simpl; auto). f_equal. apply IH. intros. apply H. simpl; auto. Qed.
Lemma split_sizes_eq p k : k <> 0 -> split_sizes p (Z.of_nat k) = Ok (map (size p k) (seq 0 k)).
Proof.
  intros Hk. unfold split_sizes. destruct (Z.leb_spec (Z.of_nat k) 0); [lia|]. rewrite Nat2Z.id. f_equal.
  pose proof (Nat.mod_upper_bound p k Hk). rewrite (seq_cut (p mod k) k) by lia.
  rewrite map_app. f_equal.
  - rewrite (map_const _ (S (p / k))); [now rewrite seq_length|]. intros b Hb. apply in_seq in Hb. rewrite size_eq.
    destruct (Nat.ltb_spec b (p mod k)); lia.
  - rewrite (map_const _ (p / k)); [now rewrite seq_length|]. intros b Hb. apply in_seq in Hb. rewrite size_eq.
    destruct (Nat.ltb_spec b (p mod k)); lia.
Qed.
Definition interval (p k b : nat) : nat * nat := (block_start p k b, block_start p k (S b)).
Lemma bounds_eq p k n b : bounds (block_start p k b) (map (size p k) (seq b n)) = map (interval p k) (seq b n).
Proof.
  revert b. induction n as [|n IH]; intros b; [reflexivity|]. cbn [seq map bounds].
  assert (E : block_start p k b + size p k b = block_start p k (S b)) by (unfold size; pose proof (start_mono p k b (S b)); lia).
  rewrite E. f_equal. apply IH.
Qed.
Lemma ids_eq p k n b : b + n <= k ->
  ids b (map (size p k) (seq b n)) = map (block_of p k) (seq (block_start p k b) (block_start p k (b + n) - block_start p k b)).
Proof.
  revert b. induction n as [|n IH]; intros b Hn.
  - rewrite Nat.add_0_r, Nat.sub_diag. reflexivity.
  - cbn [seq map ids]. rewrite IH by lia. replace (b + S n) with (S b + n) by lia.
    pose proof (start_mono p k b (S b) ltac:(lia)). pose proof (start_mono p k (S b) (S b + n) ltac:(lia)).
    replace (block_start p k (S b + n) - block_start p k b) with (size p k b + (block_start p k (S b + n) - block_start p k (S b))) by (unfold size; lia).
    rewrite seq_app, map_app. replace (block_start p k b + size p k b) with (block_start p k (S b)) by (unfold size; lia). f_equal.
    rewrite (map_const _ b); [now rewrite seq_length|]. intros i Hi. apply in_seq in Hi. apply block_of_in; unfold size in *; lia.
Qed.

Lemma blocks_range nb p : 1 <= p -> 1 <= blocks nb p <= p.
Proof. unfold blocks. lia. Qed.
Lemma slices_eq nb p : 1 <= p -> slices nb p = Ok (map (interval p (blocks nb p)) (seq 0 (blocks nb p))).
Proof.
  intros Hp. pose proof (blocks_range nb p Hp). unfold slices.
  replace (Z.min (Z.max 1 nb) (Z.of_nat p)) with (Z.of_nat (blocks nb p)) by (unfold blocks; lia).
  rewrite split_sizes_eq by lia. cbn [bind]. now rewrite <- (bounds_eq p (blocks nb p) _ 0).
Qed.
Lemma ids_all p k : k <> 0 -> ids 0 (map (size p k) (seq 0 k)) = tab p (block_of p k).
Proof. intros Hk. rewrite ids_eq by lia. rewrite start_0. change (0 + k) with k. now rewrite start_k, Nat.sub_0_r by auto. Qed.
Lemma block_id1_eq nb p : 1 <= p -> block_id1 nb p = Ok (tab p (block_of p (blocks nb p))).
Proof.
  intros Hp. pose proof (blocks_range nb p Hp). unfold block_id1.
  replace (Z.min (Z.max 1 nb) (Z.of_nat p)) with (Z.of_nat (blocks nb p)) by (unfold blocks; lia).
  rewrite split_sizes_eq by lia. cbn [bind]. rewrite ids_all by lia. reflexivity.
Qed.
Lemma block_id_eq nb p : 1 <= p -> (1 <= nb)%Z -> block_id nb p = Ok (tab p (block_of p (blocks nb p))).
Proof.
  intros Hp Hn. rewrite <- block_id1_eq by auto. unfold block_id, block_id1. now replace (Z.max 1 nb) with nb by lia.
Qed.
Lemma block_id_err nb p : (nb <= 0)%Z -> block_id nb p = Err ValueError.
Proof. intros H. unfold block_id, split_sizes. destruct (Z.leb_spec (Z.min nb (Z.of_nat p)) 0); [reflexivity|lia]. Qed.
Lemma cross_eq p k i j : i < p -> j < p ->
  cross_of (tab p (block_of p k)) i j = negb (Nat.eqb (block_of p k i) (block_of p k j)).
Proof. intros. unfold cross_of. now rewrite !nth_tab. Qed.

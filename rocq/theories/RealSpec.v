(** * Vocabulary of the numeric property statements (specification only)

    A stream of finite observations is a list [xs] of functions: [x i] is coordinate [i]. *)
From Coq Require Import Reals ZArith List Lia Lra Arith Bool.
From Verif Require Import Num Numpy BaseModel Spec ListLemmas RMat Fin.
Import ListNotations.
Local Open Scope R_scope.

Notation obs := (nat -> R).

(** The estimator with this [diff] flag, fed [rows], absorbs exactly the finite observations [xs]. *)
Definition observes (p : nat) (diff : bool) (rows : list (vec NumX)) (xs : list obs) : Prop :=
  rows_of_length p rows /\ absorbed diff rows = map (fv p) xs.

Lemma observes_plain p xs : observes p false (map (fv p) xs) xs.
Proof. split; [|reflexivity]. apply Forall_map, Forall_forall. intros. apply fv_length. Qed.

Fixpoint rdiffs (ys : list obs) : list obs :=
  match ys with
  | x :: ((y :: _) as rest) => (fun i => y i - x i) :: rdiffs rest
  | _ => []
  end.
Lemma observes_diff p ys : observes p true (map (fv p) ys) (rdiffs ys).
Proof.
  split; [apply observes_plain|]. cbn [absorbed].
  induction ys as [|x ys IH]; [reflexivity|]. destruct ys as [|y ys]; [reflexivity|].
  change (rdiffs (x :: y :: ys)) with ((fun i => y i - x i) :: rdiffs (y :: ys)).
  change (map (fv p) (x :: y :: ys)) with (fv p x :: map (fv p) (y :: ys)).
  change (zipw (@nsub NumX) (fv p y) (fv p x) :: differences (map (fv p) (y :: ys)) =
          fv p (fun i => y i - x i) :: map (fv p) (rdiffs (y :: ys))).
  rewrite IH. f_equal. unfold fv. now rewrite zipw_tab.
Qed.
(** Every stream of finite rows is of that form. *)
Definition finite_row (x : vec NumX) : Prop := Forall (fun a => exists r : R, a = Fin r) x.
Lemma finite_rows_observed p rows : rows_of_length p rows -> Forall finite_row rows ->
  exists xs, observes p false rows xs.
Proof.
  intros Hr Hf.
  assert (K : exists xs, rows = map (fv p) xs).
  { revert Hf. induction Hr as [|x rows Hx Hr IH]; intros Hf.
    - exists []. reflexivity.
    - inversion Hf as [|? ? Fx Hf']; subst. destruct (IH Hf') as (xs & ->).
      exists ((fun i => match nth i x NaN with Fin r => r | _ => 0 end) :: xs). cbn [map]. f_equal.
      apply (list_eq_nth _ _ NaN); [now rewrite fv_length|].
      intros i Hi. unfold fv. rewrite nth_tab by auto.
      unfold finite_row in Fx. rewrite Forall_forall in Fx.
      destruct (Fx (nth i x (NaN : NumX))) as (r & Er); [now apply nth_In|].
      refine (eq_trans Er _). now replace (nth i x NaN) with (Fin r). }
  destruct K as (xs & ->). exists xs. apply observes_plain.
Qed.

(** ** Reference statistics *)
(** arithmetic mean and population (divide-by-n) covariance of the rows *)
Definition mean_of (xs : list obs) (i : nat) : R := lsum (map (fun x => x i) xs) / INR (length xs).
Definition pcov_of (xs : list obs) (i j : nat) : R :=
  lsum (map (fun x => (x i - mean_of xs i) * (x j - mean_of xs j)) xs) / INR (length xs).

Definition nthobs (xs : list obs) (j : nat) : obs := nth j xs (fun _ => 0).
(** exponentially weighted mean started at [m0]: (1-r)^k m0 + sum_j r (1-r)^(k-1-j) x_j *)
Definition ewm (r : R) (m0 : obs) (xs : list obs) (i : nat) : R :=
  (1 - r) ^ (length xs) * m0 i
  + rsum (length xs) (fun j => r * (1 - r) ^ (length xs - 1 - j) * nthobs xs j i).
(** innovation of the j-th row about the mean of the rows before it *)
Definition innov (r : R) (m0 : obs) (xs : list obs) (j i : nat) : R :=
  nthobs xs j i - ewm r m0 (firstn j xs) i.
(** exponentially weighted covariance started at [C0] *)
Definition ewc (r : R) (m0 : obs) (C0 : rmat) (xs : list obs) (i j : nat) : R :=
  (1 - r) ^ (length xs) * C0 i j
  + rsum (length xs) (fun k => r * (1 - r) ^ (length xs - 1 - k) * (innov r m0 xs k i * innov r m0 xs k j)).

(** Recency-weighted mean and covariance with an empirical burn-in of [nb] rows *)
Definition burn (nb : nat) (xs : list obs) := firstn nb xs.
Definition after (nb : nat) (xs : list obs) := skipn nb xs.
Definition ewa_mean (r : R) (nb : nat) (xs : list obs) : obs :=
  ewm r (mean_of (burn nb xs)) (after nb xs).
Definition ewa_cov (r : R) (nb : nat) (xs : list obs) : rmat :=
  ewc r (mean_of (burn nb xs)) (pcov_of (burn nb xs)) (after nb xs).
(** the burn-in length used by the library: ceil(1/r) clamped to [5, 250] *)
Definition burn_len (r : R) : nat := Z.to_nat (Z.min 250 (Z.max 5 (1 - up (- (1 / r))))).

(** ** Running averages of a statistic of the history
    [g pre x] is a statistic of the current observation [x] given the observations [pre] before it.
    [rw_avg r nb g xs]: plain average of the statistic over the first [nb] observations, afterwards the
    exponentially weighted average with rate [r] started there. *)
Definition stat (g : list obs -> obs -> R) (xs : list obs) (k : nat) : R := g (firstn k xs) (nthobs xs k).
Definition ewsum (r : R) (nb : nat) (g : list obs -> obs -> R) (xs : list obs) : R :=
  let K := (length xs - nb)%nat in
  rsum K (fun k => r * (1 - r) ^ (K - 1 - k) * stat g xs (nb + k)).
Definition burn_avg (nb : nat) (g : list obs -> obs -> R) (xs : list obs) : R :=
  let n := Nat.min (length xs) nb in rsum n (stat g xs) / INR n.
Definition rw_avg (r : R) (nb : nat) (g : list obs -> obs -> R) (xs : list obs) : R :=
  (1 - r) ^ (length xs - nb) * burn_avg nb g xs + ewsum r nb g xs.
(** squared Frobenius norm *)
Definition fro2 (p : nat) (A : rmat) : R := rsum p (fun i => rsum p (fun j => A i j * A i j)).
(** Innovation of [x] about the recency-weighted mean of the observations before it
    (about 0 when there are none). *)
Definition dev (r : R) (nb : nat) (pre : list obs) (x : obs) (i : nat) : R := x i - ewa_mean r nb pre i.

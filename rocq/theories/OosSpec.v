(** * What a rolling out-of-sample evaluation is, and what a ranking is (independent of the model) *)
From Coq Require Import Reals List Arith String Lia.
From Verif Require Import Num.
Import ListNotations.

(** Rows i, i+1, ..., j-1 of a series *)
Definition rows_between {A} (i j : nat) (l : list A) : list A := firstn (j - i) (skipn i l).
(** How many windows of [a] training rows and [b] test rows, moved by [s] rows at a time, fit in [T] rows *)
Definition windows (T a b s : nat) : nat := if Nat.ltb T (a + b) then 0 else (T - a - b) / s + 1.
(** The training rows and the test rows of window [j] *)
Definition train_rows {A} (a s j : nat) (l : list A) : list A := rows_between (j * s) (j * s + a) l.
Definition test_rows {A} (a b s j : nat) (l : list A) : list A := rows_between (j * s + a) (j * s + a + b) l.
(** Two series of the same length agree on a row *)
Definition same_row {A} (l l' : list A) (i : nat) : Prop := nth_error l i = nth_error l' i.

Lemma windows_spec T a b s j : 1 <= s -> (j < windows T a b s <-> j * s + a + b <= T).
Proof.
  intros Hs. unfold windows. destruct (Nat.ltb_spec T (a + b)) as [H|H]; [lia|].
  assert (E := Nat.div_mod (T - a - b) s ltac:(lia)). assert (M := Nat.mod_upper_bound (T - a - b) s ltac:(lia)).
  set (q := (T - a - b) / s) in *. set (m := (T - a - b) mod s) in *. split; intros; nia.
Qed.

(** Order on extended reals without NaN *)
Definition xle (a b : xreal) : Prop :=
  match a, b with
  | NaN, _ | _, NaN => False
  | NInf, _ | _, PInf => True
  | Fin r, Fin s => (r <= s)%R
  | _, _ => False
  end.

(** * What Elo ratings are, independently of the code *)
From Coq Require Import Reals List String ZArith.
Import ListNotations.
Local Open Scope R_scope.
(** the logistic curve: chance of a player rated [d] points below the opponent *)
Definition logistic (d : R) : R := 1 / (1 + Rpower 10 (d / 400)).
(** the same, cut off beyond 8 * 400 points *)
Definition win_chance (d : R) : R := if Rlt_dec 3200 d then 0 else if Rlt_dec d (-3200) then 1 else logistic d.
(** one battle (winner, loser): the winner takes k times the chance it did not have from the loser *)
Definition play (k : R) (rating : string -> R) (b : string * string) : string -> R :=
  let stake := k * (1 - win_chance (rating (snd b) - rating (fst b))) in
  fun x => rating x + (if string_dec x (fst b) then stake else 0) - (if string_dec x (snd b) then stake else 0).
Definition replay (k : R) (h : list (string * string)) : string -> R := fold_left (play k) h (fun _ => 1500).
(** a name that can be read back from a key "winner>loser" *)
Fixpoint plain (s : string) : Prop := match s with EmptyString => True | String c s' => c <> Ascii.ascii_of_nat 62 /\ plain s' end.
Definition pair_dec (a b : string * string) : {a = b} + {a <> b}.
Proof. decide equality; apply string_dec. Defined.
(** the key that records wins of [fst b] over [snd b] *)
Definition key (b : string * string) : string := (fst b ++ ">" ++ snd b)%string.
(** a counter of wins: the pairs in [bs], with [f b] wins each *)
Definition counter (bs : list (string * string)) (f : string * string -> Z) : list (string * Z) := map (fun b => (key b, f b)) bs.
(** the number of battles on record (counts below 1 are no battles) *)
Fixpoint total (bs : list (string * string)) (f : string * string -> Z) : nat := match bs with [] => O | b :: l => Z.to_nat (f b) + total l f end.
Definition takes_part (bs : list (string * string)) (x : string) : Prop := exists b, In b bs /\ (x = fst b \/ x = snd b).

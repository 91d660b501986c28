(** * Vocabulary of the property statements (law-free part)

    Nothing here models code: it is the small separate specification the theorems are stated in. *)
From Coq Require Import ZArith Bool String List.
From Verif Require Import Num Numpy PyVal BaseModel.
Import ListNotations.

Section Spec.
  Context {N : Num}.

  (** A stream of observations, all of the same length [p]. *)
  Definition rows_of_length (p : nat) (rows : list (vec N)) : Prop :=
    Forall (fun x => length x = p) rows.

  (** First differences x_1 - x_0, x_2 - x_1, ... of a stream of equally long rows. *)
  Fixpoint differences (rows : list (vec N)) : list (vec N) :=
    match rows with
    | x :: ((y :: _) as rest) => zipw nsub y x :: differences rest
    | _ => []
    end.

  (** What an estimator with the given [diff] flag is documented to absorb from a stream. *)
  Definition absorbed (diff : bool) (rows : list (vec N)) : list (vec N) :=
    if diff then differences rows else rows.

  (** The public mutating calls, and running a history of them.  A call that raises is caught by the
      caller and the history goes on; the list of outcomes is returned. *)
  Inductive call (C : EstClass N) :=
  | PartialFit (X : input N) | Fit (X : input N) | SetParams (P : c_P C).
  Definition do_call {C} (o : inst C) (c : call C) : inst C * res unit :=
    match c with
    | PartialFit _ X => partial_fit o X
    | Fit _ X => fit o X
    | SetParams _ P => (set_params o P, Ok tt)
    end.
  Fixpoint run {C} (o : inst C) (cs : list (call C)) : inst C * list (res unit) :=
    match cs with
    | [] => (o, [])
    | c :: cs' =>
      let '(o', r) := do_call o c in
      let '(o'', rs) := run o' cs' in (o'', r :: rs)
    end.

  (** The rows a call passes to the estimator; a history all of whose rows have length [p]. *)
  Definition call_rows {C} (c : call C) : list (vec N) :=
    match c with
    | PartialFit _ X | Fit _ X => match as_rows X with Ok rows => rows | Err _ => [] end
    | SetParams _ _ => []
    end.
  Definition history_of_length {C} (p : nat) (cs : list (call C)) : Prop :=
    Forall (fun c => rows_of_length p (call_rows c)) cs.
  (** No [set_params] call of the history switches differencing on. *)
  Definition never_diff {C} (cs : list (call C)) : Prop :=
    Forall (fun c => match c with SetParams _ P => c_diff C P = false | _ => True end) cs.
  (** A history that feeds single observations, one [partial_fit] call each. *)
  Definition feed {C} (xs : list (vec N)) : list (call C) := map (fun x => PartialFit C (In1 x)) xs.

  (** The number of scalars in a checkpoint, and the budget it must stay within for dimension [p]. *)
  Fixpoint json_size (j : json N) : nat :=
    match j with JInt _ => 1 | JNum _ => 1 | JList l => list_sum (map json_size l) end.
  Definition state_size (d : jdict N) : nat := list_sum (map (fun kv => json_size (snd kv)) d).
  Definition quadratic_budget (p : nat) : nat := 4 * (p * p) + 2 * p + 6.

  (** Two instances that no reader of the public interface can tell apart now. *)
  Definition same_fitted (L : LinAlg N) {C} (o o' : inst C) : Prop :=
    n_samples_ o = n_samples_ o' /\ location_ o = location_ o' /\ covariance_ o = covariance_ o' /\
    correlation_ o = correlation_ o' /\ precision_ L o = precision_ L o' /\
    (forall X, mahalanobis L o X = mahalanobis L o' X) /\ (forall X, score L o X = score L o' X).

  (** ... and that stay indistinguishable under every later history of calls. *)
  Definition indistinguishable (L : LinAlg N) {C} (o o' : inst C) : Prop :=
    forall cs, snd (run o cs) = snd (run o' cs) /\
               same_fitted L (fst (run o cs)) (fst (run o' cs)).
End Spec.

(** * Python values held in a state dict, and their JSON form

    State dicts are association lists from strings to values ([precise/_state.py] lines 8-12).
    JSON text is not modelled: [json.loads(json.dumps(d))] is the identity on the JSON trees built
    here (Python prints floats with repr, which round-trips, and accepts NaN/Infinity). *)
From Coq Require Import ZArith Bool String List.
From Verif Require Import Num Numpy.
Import ListNotations.
Local Open Scope string_scope.

(** the arrays held in a state dict: 'mean' (1-d), 'cov' (2-d), 'quadrants' (3-d, precise/partialmoments.py:39) *)
Inductive ndarray (N : Num) :=
| A1 (v : vec N) | A2 (m : mat N) | A3 (t : list (mat N)).
Arguments A1 {N}. Arguments A2 {N}. Arguments A3 {N}.

(** Simplification: Python ints are naturals (dimensions, counts). *)
(** the values of a state dict, precise/_state.py:8-12 *)
Inductive pyval (N : Num) :=
| VInt (n : nat) | VNum (x : N) | VArr (a : ndarray N).
Arguments VInt {N}. Arguments VNum {N}. Arguments VArr {N}.

(** the state dict, precise/_state.py:8-12 *)
Definition dict (N : Num) := list (string * pyval N).

(** the JSON values returned by [get_state], precise/base.py:140-147 *)
Inductive json (N : Num) :=
| JInt (n : nat) | JNum (x : N) | JList (l : list (json N)).
Arguments JInt {N}. Arguments JNum {N}. Arguments JList {N}.
(** the dict returned by [get_state], precise/base.py:140-147 *)
Definition jdict (N : Num) := list (string * json N).

(** dict lookup, e.g. precise/base.py:44, 47 *)
Fixpoint dget {A} (k : string) (d : list (string * A)) : option A :=
  match d with
  | [] => None
  | (k', v) :: d' => if String.eqb k k' then Some v else dget k d'
  end.

Section Access.
  Context {N : Num}.
  (** [d[k]] read at the type the code uses it at. *)
  (** e.g. s["n_dim"] at precise/schur_ledoit_wolf.py:65 *)
  Definition getI (k : string) (d : dict N) : res nat :=
    match dget k d with
    | None => Err KeyError | Some (VInt n) => Ok n | Some _ => Err TypeError end.
  (** e.g. s["r"] at precise/schur_ledoit_wolf.py:62 *)
  Definition getN (k : string) (d : dict N) : res N :=
    match dget k d with
    | None => Err KeyError | Some (VNum x) => Ok x | Some (VInt n) => Ok (nofn n)
    | Some _ => Err TypeError end.
  (** e.g. state["mean"] at precise/base.py:47 *)
  Definition getV (k : string) (d : dict N) : res (vec N) :=
    match dget k d with
    | None => Err KeyError | Some (VArr (A1 v)) => Ok v | Some _ => Err TypeError end.
  (** An empty 1-d array (what a (0, k) array becomes after a JSON round trip) has no rows. *)
  (** e.g. state["cov"] at precise/base.py:44 *)
  Definition getM (k : string) (d : dict N) : res (mat N) :=
    match dget k d with
    | None => Err KeyError | Some (VArr (A2 m)) => Ok m | Some (VArr (A1 [])) => Ok []
    | Some _ => Err TypeError end.
  (** state["quadrants"] at precise/partialmoments.py:53, 74 *)
  Definition getT (k : string) (d : dict N) : res (list (mat N)) :=
    match dget k d with
    | None => Err KeyError | Some (VArr (A3 t)) => Ok t | Some _ => Err TypeError end.
  (** [d.get(k, default)] for a float. *)
  (** state.get("pi_cross", 0.0) at precise/schur_ledoit_wolf.py:83 *)
  Definition getN_default (k : string) (def : N) (d : dict N) : res N :=
    match dget k d with
    | None => Ok def | Some (VNum x) => Ok x | Some (VInt n) => Ok (nofn n)
    | Some _ => Err TypeError end.

  (** [ndarray.tolist()] *)
  (** precise/base.py:145, 168; precise/block_covariance.py:104-105 *)
  Definition tolist (a : ndarray N) : json N :=
    match a with
    | A1 v => JList (map JNum v)
    | A2 m => JList (map (fun r => JList (map JNum r)) m)
    | A3 t => JList (map (fun m => JList (map (fun r => JList (map JNum r)) m)) t)
    end.

  (** [np.array(l, dtype=float)] for a list [l]: nesting depth decides the dimension, ragged or
      mixed nesting raises ValueError, [[]] is the empty 1-d array. *)
  (** one number of a JSON list, read by [np.array(v, dtype=float)] at precise/base.py:155-157 *)
  Definition j_num (j : json N) : option N :=
    match j with JNum x => Some x | JInt n => Some (nofn n) | JList _ => None end.
  (** part of [np.array(v, dtype=float)] at precise/base.py:155-157 *)
  Fixpoint all_some {A} (l : list (option A)) : option (list A) :=
    match l with
    | [] => Some []
    | Some a :: r => match all_some r with Some r' => Some (a :: r') | None => None end
    | None :: _ => None
    end.
  (** part of [np.array(v, dtype=float)] at precise/base.py:155-157: rows of one length *)
  Definition same_len {A} (l : list (list A)) : bool :=
    match l with [] => true | r :: l' => forallb (fun s => Nat.eqb (List.length s) (List.length r)) l' end.
  (** part of [np.array(v, dtype=float)] at precise/base.py:155-157: a list of numbers *)
  Definition j_vec (j : json N) : option (vec N) :=
    match j with JList l => all_some (map j_num l) | _ => None end.
  (** part of [np.array(v, dtype=float)] at precise/base.py:155-157: a list of rows *)
  Definition j_mat (j : json N) : option (mat N) :=
    match j with
    | JList l => match all_some (map j_vec l) with
                 | Some m => if same_len m then Some m else None | None => None end
    | _ => None end.
  (** precise/base.py:157, 176; precise/block_covariance.py:113-119 *)
  Definition np_array (l : list (json N)) : res (ndarray N) :=
    match all_some (map j_num l) with
    | Some v => Ok (A1 v)
    | None =>
      match j_mat (JList l) with
      | Some m => Ok (A2 m)
      | None =>
        match all_some (map j_mat l) with
        | Some t => if same_len t && same_len (List.concat t) then Ok (A3 t) else Err ValueError
        | None => Err ValueError
        end
      end
    end.
End Access.

(** * Model of object identity: which arrays an estimator shares with its caller

    In BaseModel.v arrays are values.  Here they are objects in a heap, so that an in-place write by the caller
    ([a[...] = c]) is seen by every view of that array.  The facts about numpy used (numpy manual):
    - [np.asarray(X, dtype=float)] returns [X] itself when [X] is a float64 array, and a new array for lists;
    - iterating a 2-d array, and [arr[np.newaxis, :]], give views of it;
    - arithmetic gives new arrays.
    Every [_update_state] of the 17 classes builds its arrays by arithmetic and never writes into the arrays of the
    old state, so a new state has a new mean array.
    Simplification: [a[...] = c] requires [c] to have the shape of [a] (no broadcasting). *)
From Coq Require Import ZArith Bool String List.
From Verif Require Import Num Numpy PyVal LinalgModel BaseModel Estimators.
Import ListNotations.
Local Open Scope string_scope.

Section Heap.
  Context {N : Num} (L : LinAlg N) (C : EstClass N).

  (** no counterpart in /repo: object identity of numpy arrays (CPython) *)
  Definition addr := nat.
  (** no counterpart in /repo: the arrays that exist (CPython) *)
  Definition heap := list (ndarray N).
  (** A row of the array being iterated: a row view of an array in the heap (row 0 of a 1-d array is the array), or a row
      of an array that nobody else holds. *)
  (** the loop variable [x] of precise/base.py:53 *)
  Inductive rowref := View (a : addr) (i : nat) | Own (v : vec N).
  (** reading the loop variable [x] of precise/base.py:53 *)
  Definition deref (hp : heap) (r : rowref) : vec N :=
    match r with
    | Own v => v
    | View a i => match nth_error hp a with Some (A1 v) => v | Some (A2 m) => nth i m [] | _ => [] end
    end.

  (** [location_] is [np.asarray(self._state_to_mean(state))].  [Some put] when [_state_to_mean] returns the array held in
      the state dict (precise/base.py:46-47, tyler.py:64-65, diagonal.py:60-61): [put s v] is the state [s] whose mean
      array contains [v].  [None] when it builds a new one (block_covariance.py:86-90). *)
  Context (put : option (c_St C -> vec N -> c_St C)).

  (** An estimator: the array holding its mean has an address; [_prev_x] is a reference to a row. *)
  (** the attributes of an instance, precise/base.py:31-34 *)
  Record hinst := mkH {
    h_params : c_P C; h_state : option (c_St C); h_mean : option addr; h_nfeat : option nat; h_prev : option rowref }.
  (** precise/base.py:31-34 *)
  Definition hnew (p : c_P C) : hinst := mkH p None None None None.
  (** The contents of the estimator at this moment *)
  (** no counterpart in /repo: an instance of BaseModel.v read off the heap *)
  Definition contents (hp : heap) (o : hinst) : inst C :=
    mkInst (h_params o)
      (match h_state o, put, h_mean o with
       | Some s, Some f, Some a => match nth_error hp a with Some (A1 v) => Some (f s v) | _ => Some s end
       | s, _, _ => s
       end)
      (h_nfeat o) (match h_prev o with Some r => Some (deref hp r) | None => None end).
  (** A new state: its mean is a new array *)
  (** precise/base.py:61-62: [self._state = ...] *)
  Definition store (hp : heap) (p : c_P C) (s : option (c_St C)) (nf : option nat) (prev : option rowref) : heap * hinst :=
    match s, put with
    | Some st, Some _ =>
      match c_mean C p st with
      | Ok m => ((hp ++ [A1 m])%list, mkH p s (Some (length hp)) nf prev)
      | Err _ => (hp, mkH p s None nf prev)
      end
    | _, _ => (hp, mkH p s None nf prev)
    end.
  (** precise/base.py:59-62 *)
  Definition h_absorb (hp : heap) (o : hinst) (x : vec N) : heap * hinst * res unit :=
    let '(o', r) := absorb (contents hp o) x in
    match h_state o, r with
    | Some _, Err e => (hp, o, Err e)
    | _, _ => (store hp (h_params o) (i_state o') (i_nfeat o') (h_prev o), r)
    end.
  (** precise/base.py:56, 58: [self._prev_x = x] *)
  Definition set_prev (o : hinst) (r : rowref) : hinst := mkH (h_params o) (h_state o) (h_mean o) (h_nfeat o) (Some r).
  (** precise/base.py:53-62: [self._prev_x = x] keeps a reference *)
  Definition h_fit_row (hp : heap) (o : hinst) (r : rowref) : heap * hinst * res unit :=
    if c_diff C (h_params o) then
      match h_prev o with
      | None => (hp, set_prev o r, Ok tt)
      | Some prev =>
        match vsub (deref hp r) (deref hp prev) with
        | Err e => (hp, o, Err e)
        | Ok d => h_absorb hp (set_prev o r) d
        end
      end
    else h_absorb hp o (deref hp r).
  (** precise/base.py:53-62  the loop of [partial_fit] *)
  Fixpoint h_fit_rows (hp : heap) (o : hinst) (rows : list rowref) : heap * hinst * res unit :=
    match rows with
    | [] => (hp, o, Ok tt)
    | r :: rest =>
      match h_fit_row hp o r with
      | (hp', o', Ok _) => h_fit_rows hp' o' rest
      | e => e
      end
    end.

  (** What the caller passes: a list (copied), or one of the arrays it holds (by its address) *)
  (** the argument of [as_rows], precise/_conventions.py:13 *)
  Inductive arg := AList (X : input N) | AArr (a : addr).
  (** precise/_conventions.py:13-25  [as_rows] *)
  Definition h_as_rows (hp : heap) (X : arg) : res (list rowref) :=
    match X with
    | AList X => rows <- as_rows X ;; Ok (map Own rows)
    | AArr a =>
      match nth_error hp a with
      | Some (A1 _) => Ok [View a 0]
      | Some (A2 m) => Ok (map (View a) (seq 0 (length m)))
      | _ => Err ValueError
      end
    end.
  (** precise/base.py:50-63 *)
  Definition h_partial_fit (hp : heap) (o : hinst) (X : arg) : heap * hinst * res unit :=
    match h_as_rows hp X with Err e => (hp, o, Err e) | Ok rows => h_fit_rows hp o rows end.
  (** precise/base.py:65-72 *)
  Definition is_2d (hp : heap) (X : arg) : bool :=
    match X with AList (In2 _) => true | AArr a => match nth_error hp a with Some (A2 _) => true | _ => false end | _ => false end.
  (** precise/base.py:65-72  [fit] *)
  Definition h_fit (hp : heap) (o : hinst) (X : arg) : heap * hinst * res unit :=
    let o' := mkH (h_params o) None None (h_nfeat o) None in
    if is_2d hp X then h_partial_fit hp o' X else (hp, o', Err ValueError).
  (** precise/base.py:87-89: the mean array itself when [_state_to_mean] returns it, else a new array *)
  Definition h_location (hp : heap) (o : hinst) : heap * res addr :=
    match location_ (contents hp o) with
    | Err e => (hp, Err e)
    | Ok v =>
      match put, h_mean o with
      | Some _, Some a => (hp, Ok a)
      | _, _ => ((hp ++ [A1 v])%list, Ok (length hp))
      end
    end.
  (** precise/base.py:91-102  the matrix properties compute new arrays *)
  Inductive prop := Covariance | Correlation | Precision.
  (** precise/base.py:91-102 *)
  Definition read_prop (k : prop) (o : inst C) : res (mat N) :=
    match k with Covariance => covariance_ o | Correlation => correlation_ o | Precision => precision_ L o end.
  (** precise/base.py:91-102 *)
  Definition h_read (hp : heap) (o : hinst) (k : prop) : heap * res addr :=
    match read_prop k (contents hp o) with
    | Err e => (hp, Err e)
    | Ok m => ((hp ++ [A2 m])%list, Ok (length hp))
    end.
  (** precise/base.py:149-161  from a dict of plain values (lists are copied) *)
  Definition h_set_state (hp : heap) (o : hinst) (j : option (jdict N)) : heap * hinst * res unit :=
    match set_state (contents hp o) j with
    | Err e => (hp, o, Err e)
    | Ok o' => (store hp (h_params o) (i_state o') (i_nfeat o') (h_prev o), Ok tt)
    end.

  (** ** Programs of the caller.  The caller holds a list of arrays; every command that yields one adds it to the list
      (nothing when the command raised), and later commands name an array by its position in that list. *)
  (** no counterpart in /repo: the program of the caller *)
  Inductive cmd :=
  | Alloc (c : ndarray N)            (* a = np.array(...) *)
  | Write (h : nat) (c : ndarray N)  (* a[...] = c *)
  | Look (h : nat)                   (* what the array contains now *)
  | PartialFit (X : input N) | PartialFitArr (h : nat)
  | Fit (X : input N) | FitArr (h : nat)
  | Location | Read (k : prop)
  | SetState (j : option (jdict N)).
  (** no counterpart in /repo: the program of the caller (numpy's condition on [a[...] = c]) *)
  Definition same_shape (c d : ndarray N) : bool :=
    match c, d with
    | A1 v, A1 w => Nat.eqb (length v) (length w)
    | A2 m, A2 n => andb (Nat.eqb (length m) (length n)) (forallb (fun p => Nat.eqb (length (fst p)) (length (snd p))) (combine m n))
    | A3 _, A3 _ => false
    | _, _ => false
    end.
  (** no counterpart in /repo: the program of the caller ([a[...] = c]) *)
  Fixpoint upd {A} (l : list A) (i : nat) (x : A) : list A :=
    match l, i with [], _ => [] | _ :: l', O => x :: l' | y :: l', S i' => y :: upd l' i' x end.
  (** What a command shows: an exception, nothing, or the contents of the array it yields *)
  (** no counterpart in /repo: the program of the caller *)
  Definition shown := res (option (ndarray N)).
  (** no counterpart in /repo: the program of the caller *)
  Definition quiet (r : res unit) : shown := match r with Ok _ => Ok None | Err e => Err e end.
  (** no counterpart in /repo: the program of the caller *)
  Record world := mkW { w_heap : heap; w_held : list (option addr); w_est : hinst }.
  (** no counterpart in /repo: the program of the caller *)
  Definition held (w : world) (h : nat) : option addr := match nth_error (w_held w) h with Some (Some a) => Some a | _ => None end.
  (** no counterpart in /repo: the program of the caller *)
  Definition got (w : world) (p : heap * res addr) : world * shown :=
    match p with
    | (hp, Ok a) => (mkW hp (w_held w ++ [Some a])%list (w_est w), match nth_error hp a with Some c => Ok (Some c) | None => Err IndexError end)
    | (hp, Err e) => (mkW hp (w_held w ++ [None])%list (w_est w), Err e)
    end.
  (** no counterpart in /repo: the program of the caller *)
  Definition after (w : world) (p : heap * hinst * res unit) : world * shown :=
    match p with (hp, o, r) => (mkW hp (w_held w) o, quiet r) end.
  (** no counterpart in /repo: the program of the caller *)
  Definition step (w : world) (c : cmd) : world * shown :=
    let hp := w_heap w in
    let o := w_est w in
    match c with
    | Alloc c => got w ((hp ++ [c])%list, Ok (length hp))
    | Write h c =>
      match held w h with
      | Some a => match nth_error hp a with
                  | Some d => if same_shape d c then (mkW (upd hp a c) (w_held w) o, Ok None) else (w, Err ValueError)
                  | None => (w, Err IndexError)
                  end
      | None => (w, Err IndexError)
      end
    | Look h => match held w h with
                | Some a => (w, match nth_error hp a with Some c => Ok (Some c) | None => Err IndexError end)
                | None => (w, Err IndexError)
                end
    | PartialFit X => after w (h_partial_fit hp o (AList X))
    | PartialFitArr h => match held w h with Some a => after w (h_partial_fit hp o (AArr a)) | None => (w, Err IndexError) end
    | Fit X => after w (h_fit hp o (AList X))
    | FitArr h => match held w h with Some a => after w (h_fit hp o (AArr a)) | None => (w, Err IndexError) end
    | Location => got w (h_location hp o)
    | Read k => got w (h_read hp o k)
    | SetState j => after w (h_set_state hp o j)
    end.
  (** no counterpart in /repo: the program of the caller *)
  Fixpoint exec (w : world) (prog : list cmd) : world * list shown :=
    match prog with
    | [] => (w, [])
    | c :: prog' => let '(w', r) := step w c in let '(w'', rs) := exec w' prog' in (w'', r :: rs)
    end.
  (** no counterpart in /repo: the program of the caller *)
  Definition start (p : c_P C) : world := mkW [] [] (hnew p).
End Heap.

(** The mean entry of a state dict *)
(** the array held under "mean", precise/base.py:46-47 *)
Fixpoint put_mean {N : Num} (s : dict N) (v : vec N) : dict N :=
  match s with
  | [] => []
  | (k, x) :: s' => if String.eqb "mean" k then (k, VArr (A1 v)) :: s' else (k, x) :: put_mean s' v
  end.

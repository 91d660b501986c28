(** * Model of precise/_conventions.py and precise/base.py

    An estimator *class* supplies the hooks; an *instance* holds its constructor parameters and the
    three mutable attributes [_state], [n_features_in_], [_prev_x].  A mutating method returns the new
    instance together with its outcome, so what survives an exception is visible. *)
From Coq Require Import ZArith Bool String List.
From Verif Require Import Num Numpy PyVal LinalgModel.
Import ListNotations.
Local Open Scope string_scope.

(** What the caller passes as [X]: a 1-d observation, a 2-d batch (rows), or an array of another
    dimension. *)
(** the argument of [as_rows], precise/_conventions.py:13 *)
Inductive input (N : Num) := In1 (v : vec N) | In2 (rows : list (vec N)) | InN (ndim : nat).
Arguments In1 {N}. Arguments In2 {N}. Arguments InN {N}.

(** precise/_conventions.py:13-25  [as_rows] *)
Definition as_rows {N} (X : input N) : res (list (vec N)) :=
  match X with In1 v => Ok [v] | In2 rows => Ok rows | InN _ => Err ValueError end.

(** The hooks of an estimator class (precise/base.py:37-47), plus the methods a subclass overrides
    ([precision_], [get_state], [set_state] are overridden by BlockCovariance). *)
Record EstClass (N : Num) := mkClass {
  c_name : string;
  c_P : Type;                                     (* constructor parameters *)
  c_St : Type;                                    (* contents of self._state *)
  c_diff : c_P -> bool;                           (* getattr(self, "diff", False) *)
  c_init : c_P -> nat -> res c_St;                (* _init_state *)
  c_update : c_P -> c_St -> vec N -> res c_St;    (* _update_state *)
  c_cov : c_P -> c_St -> res (mat N);             (* _state_to_cov *)
  c_mean : c_P -> c_St -> res (vec N);            (* _state_to_mean *)
  c_nsamples : c_St -> res nat;                   (* state["n_samples"] *)
  c_prec : option (c_P -> c_St -> res (mat N));   (* overridden precision_ *)
  c_get : c_St -> res (jdict N);                  (* get_state of a fitted instance *)
  c_set : jdict N -> res (c_St * option nat);     (* set_state: new _state, n_features_in_ *)
}.
Arguments c_name {N}. Arguments c_P {N}. Arguments c_St {N}. Arguments c_diff {N}.
Arguments c_init {N}. Arguments c_update {N}. Arguments c_cov {N}. Arguments c_mean {N}.
Arguments c_nsamples {N}. Arguments c_prec {N}. Arguments c_get {N}. Arguments c_set {N}.

(** the attributes of an instance, precise/base.py:31-34 *)
Record inst {N} (C : EstClass N) := mkInst {
  i_params : c_P C;
  i_state : option (c_St C);
  i_nfeat : option nat;
  i_prev : option (vec N);
}.
Arguments mkInst {N C}. Arguments i_params {N C}. Arguments i_state {N C}.
Arguments i_nfeat {N C}. Arguments i_prev {N C}.

(** [d.get(k, v)], given the outcome of [d[k]] *)
(** precise/base.py:75  [self._state.get("n_samples", 0)] *)
Definition get_or {A} (v : A) (r : res A) : res A := match r with Err KeyError => Ok v | _ => r end.

Section Base.
  Context {N : Num} (L : LinAlg N) {C : EstClass N}.
  Notation vec := (vec N).
  Notation mat := (mat N).
  Notation inst := (inst C).

  (** precise/base.py:31-34  construction *)
  Definition new (p : c_P C) : inst := mkInst p None None None.

  (** precise/base.py:59-62  the tail of the [partial_fit] loop body: create the state on the first
      row, then update it.  The assignments made before an exception are kept. *)
  Definition absorb (o : inst) (x : vec) : inst * res unit :=
    match i_state o with
    | None =>
      let o1 := mkInst (i_params o) None (Some (length x)) (i_prev o) in
      match c_init C (i_params o) (length x) with
      | Err e => (o1, Err e)
      | Ok s0 =>
        match c_update C (i_params o) s0 x with
        | Err e => (mkInst (i_params o) (Some s0) (Some (length x)) (i_prev o), Err e)
        | Ok s1 => (mkInst (i_params o) (Some s1) (Some (length x)) (i_prev o), Ok tt)
        end
      end
    | Some s =>
      match c_update C (i_params o) s x with
      | Err e => (o, Err e)
      | Ok s1 => (mkInst (i_params o) (Some s1) (i_nfeat o) (i_prev o), Ok tt)
      end
    end.

  (** precise/base.py:53-62  one iteration of the [partial_fit] loop *)
  Definition fit_row (o : inst) (x : vec) : inst * res unit :=
    if c_diff C (i_params o) then
      match i_prev o with
      | None => (mkInst (i_params o) (i_state o) (i_nfeat o) (Some x), Ok tt)
      | Some prev =>
        match vsub x prev with
        | Err e => (o, Err e)
        | Ok d => absorb (mkInst (i_params o) (i_state o) (i_nfeat o) (Some x)) d
        end
      end
    else absorb o x.

  (** precise/base.py:53-62  the loop of [partial_fit] *)
  Fixpoint fit_rows (o : inst) (rows : list vec) : inst * res unit :=
    match rows with
    | [] => (o, Ok tt)
    | x :: rest =>
      match fit_row o x with
      | (o', Ok _) => fit_rows o' rest
      | (o', Err e) => (o', Err e)
      end
    end.

  (** precise/base.py:50-63  [partial_fit] *)
  Definition partial_fit (o : inst) (X : input N) : inst * res unit :=
    match as_rows X with
    | Err e => (o, Err e)
    | Ok rows => fit_rows o rows
    end.

  (** precise/base.py:65-72  [fit]: the state is cleared before the input is validated *)
  Definition fit (o : inst) (X : input N) : inst * res unit :=
    let o' := mkInst (i_params o) None (i_nfeat o) None in
    match X with
    | In2 rows => partial_fit o' (In2 rows)
    | _ => (o', Err ValueError)
    end.

  (** precise/base.py:74-80  [_fitted_state]; [.get("n_samples", 0)] turns a missing key into 0 *)
  Definition fitted_state (o : inst) : res (c_St C) :=
    match i_state o with
    | None => Err NotFittedError
    | Some s => n <- get_or 0 (c_nsamples C s) ;; if Nat.ltb n 1 then Err NotFittedError else Ok s
    end.

  (** precise/base.py:83-85  [n_samples_] *)
  Definition n_samples_ (o : inst) : res nat :=
    match i_state o with None => Ok 0 | Some s => c_nsamples C s end.

  (** precise/base.py:87-89  [location_] *)
  Definition location_ (o : inst) : res vec :=
    s <- fitted_state o ;; c_mean C (i_params o) s.

  (** precise/base.py:91-94  [covariance_] *)
  Definition covariance_ (o : inst) : res mat :=
    s <- fitted_state o ;; cov <- c_cov C (i_params o) s ;; to_symmetric cov.

  (** precise/base.py:96-98  [correlation_] *)
  Definition correlation_ (o : inst) : res mat :=
    c <- covariance_ o ;; cov_to_corrcoef c.

  (** precise/base.py:100-102  [precision_] (BlockCovariance overrides it) *)
  Definition precision_ (o : inst) : res mat :=
    match c_prec C with
    | Some f => s <- fitted_state o ;; f (i_params o) s
    | None => c <- covariance_ o ;; try_invert L c
    end.

  (** precise/base.py:108-113  [mahalanobis]; the einsum "ij,jk,ik->i" is [einsum_quad] per row *)
  Definition mahalanobis (o : inst) (X : input N) : res vec :=
    rows <- as_rows X ;;
    prec <- precision_ o ;;
    loc <- location_ o ;;
    mapM (fun row => c <- vsub row loc ;; einsum_quad c prec) rows.

  (** precise/base.py:115-123  [score] *)
  Definition score (o : inst) (X : input N) : res N :=
    rows <- as_rows X ;;
    prec <- precision_ o ;;
    '(_, logdet) <- la_slogdet L prec ;;
    let p := ncols rows in
    quad <- mahalanobis o (In2 rows) ;;
    let half := nlit 5 1 in
    let ll := map (fun q => nsub (nsub (nmul half logdet) (nmul half q))
                                 (nmul (nmul half (nofn p)) (la_log2pi L))) quad in
    Ok (vmean ll).

  (** precise/base.py:134-137  [set_params]; names the class does not know are simply set as
      attributes and have no effect on the modelled methods *)
  Definition set_params (o : inst) (p : c_P C) : inst :=
    mkInst p (i_state o) (i_nfeat o) (i_prev o).

  (** precise/keyed.py:29-31 and precise/conditional.py:31-32  [_clone]: type(est) called with get_params() *)
  Definition clone (o : inst) : inst := new (i_params o).

  (** precise/base.py:140-147  [get_state] *)
  Definition get_state (o : inst) : res (option (jdict N)) :=
    match i_state o with
    | None => Ok None
    | Some s => j <- c_get C s ;; Ok (Some j)
    end.

  (** precise/base.py:149-161  [set_state]; [_prev_x] is not touched *)
  Definition set_state (o : inst) (j : option (jdict N)) : res inst :=
    match j with
    | None => Ok (mkInst (i_params o) None None (i_prev o))
    | Some d => '(s, nf) <- c_set C d ;; Ok (mkInst (i_params o) (Some s) nf (i_prev o))
    end.

  (** precise/base.py:163-169  [__getstate__] *)
  Record pickled := mkPickled {
    pk_params : c_P C; pk_state : option (jdict N);
    pk_nfeat : option nat; pk_prev : option (list (json N)) }.
  (** precise/base.py:163-169  [__getstate__] *)
  Definition getstate (o : inst) : res pickled :=
    st <- get_state o ;;
    Ok (mkPickled (i_params o) st (i_nfeat o)
                  (match i_prev o with None => None | Some v => Some (map JNum v) end)).

  (** precise/base.py:171-176  [__setstate__] *)
  Definition setstate (d : pickled) : res inst :=
    o <- set_state (new (pk_params d)) (pk_state d) ;;
    match pk_prev d with
    | None => Ok (mkInst (i_params o) (i_state o) (pk_nfeat d) None)
    | Some l =>
      a <- np_array l ;;
      match a with
      | A1 v => Ok (mkInst (i_params o) (i_state o) (pk_nfeat d) (Some v))
      | _ => Err TypeError
      end
    end.
End Base.
Arguments pickled {N} C.

(** ** The state hooks shared by every class whose [_state] is a plain dict *)
Section DictState.
  Context {N : Num}.
  Notation dict := (dict N).

  (** precise/base.py:85 and 75: [self._state["n_samples"]] *)
  Definition dict_nsamples (s : dict) : res nat := getI "n_samples" s.

  (** precise/base.py:144-147  the dict comprehension of [get_state] *)
  Definition dict_get (s : dict) : res (jdict N) :=
    Ok (map (fun kv => (fst kv, match snd kv with
                                | VInt n => JInt n | VNum x => JNum x | VArr a => tolist a end)) s).

  (** precise/base.py:155-161  the body of [set_state] for a dict.  Simplification: an "n_dim" that is not an int
      raises TypeError here; Python's int() would accept a float, and would raise only after [_state] was assigned. *)
  Definition dict_set (d : jdict N) : res (dict * option nat) :=
    restored <- mapM (fun kv => match snd kv with
                                | JInt n => Ok (fst kv, VInt n)
                                | JNum x => Ok (fst kv, VNum x)
                                | JList l => a <- np_array l ;; Ok (fst kv, VArr a) end) d ;;
    match dget "n_dim" restored with
    | None => Ok (restored, None)
    | Some (VInt n) => Ok (restored, Some n)
    | Some _ => Err TypeError
    end.

  (** precise/base.py:43-47  the default [_state_to_cov] / [_state_to_mean] *)
  Definition dict_cov (s : dict) : res (mat N) := getM "cov" s.
  (** precise/base.py:46-47  [_state_to_mean] *)
  Definition dict_mean (s : dict) : res (vec N) := getV "mean" s.
End DictState.

(** * Model of precise/keyed.py

    Observations are Python dicts from names to floats: association lists in insertion order (a dict
    has distinct keys; theorems assume [NoDup] where it matters).  The wrapped estimator is any class
    [C].  The prototype passed as an instance is an object the caller still holds and may go on using,
    so it is a separate value [proto], read whenever the factory runs. *)
From Coq Require Import ZArith Bool String List.
From Verif Require Import Num Numpy PyVal LinalgModel BaseModel.
Import ListNotations.
Local Open Scope string_scope.

(** an observation: the argument [x] of precise/keyed.py:53, 134, 226 *)
Definition obs (N : Num) := list (string * N).
(** [x.keys()], precise/keyed.py:136, 228 *)
Definition obs_keys {N} (x : obs N) : list string := map fst x.
(** [k in l] for names, [s.issubset(t)] and [s == t] on key-sets given as lists. *)
(** precise/keyed.py:143 *)
Definition mem (k : string) (l : list string) : bool := existsb (String.eqb k) l.
(** precise/keyed.py:231, 267 *)
Definition subset (s t : list string) : bool := forallb (fun k => mem k t) s.
(** precise/keyed.py:239 *)
Definition set_eq (s t : list string) : bool := subset s t && subset t s.
(** [list.index]: position of the first occurrence, ValueError if there is none. *)
(** precise/keyed.py:161, 273 *)
Fixpoint index_of (k : string) (l : list string) : res nat :=
  match l with
  | [] => Err ValueError
  | k' :: l' => if String.eqb k k' then Ok 0 else i <- index_of k l' ;; Ok (S i)
  end.
(** [{k: i for i, k in enumerate(keys)}[k]]: the last occurrence wins. *)
(** precise/keyed.py:260 *)
Fixpoint last_index (k : string) (l : list string) : res nat :=
  match l with
  | [] => Err KeyError
  | k' :: l' =>
    match last_index k l' with
    | Ok i => Ok (S i)
    | Err e => if String.eqb k k' then Ok 0 else Err e
    end
  end.
(** [a[i] = v] *)
(** precise/keyed.py:145 and the matrix assignments of 274 *)
Fixpoint list_set {A} (i : nat) (v : A) (l : list A) : list A :=
  match l, i with
  | [], _ => []
  | _ :: l', O => v :: l'
  | a :: l', S i' => a :: list_set i' v l'
  end.
(** [d[k] = v] on an insertion-ordered dict. *)
(** precise/keyed.py:74-79 *)
Fixpoint dict_put {A} (k : string) (v : A) (d : list (string * A)) : list (string * A) :=
  match d with
  | [] => [(k, v)]
  | (k', v') :: d' => if String.eqb k k' then (k', v) :: d' else (k', v') :: dict_put k v d'
  end.

Section Keyed.
  Context {N : Num} (L : LinAlg N) (fuel : nat) {C : EstClass N}.
  Notation vec := (vec N).
  Notation mat := (mat N).
  Notation inst := (inst C).
  Notation obs := (obs N).

  (** The [estimator] argument: a class called with keyword arguments (giving parameters [P]), or a
      configured instance (the prototype, held elsewhere).  [estimator=None] is [ByClass] with
      EwaCovariance's defaults. *)
  (** the first argument of precise/keyed.py:34-40 *)
  Inductive factory := ByClass (P : c_P C) | ByInstance.

  (** precise/keyed.py:34-40  [_factory]: extra keyword arguments are refused with an instance *)
  Definition mk_factory (f : factory) (extra_kwargs : bool) : res factory :=
    match f with
    | ByClass P => Ok (ByClass P)
    | ByInstance => if extra_kwargs then Err ValueError else Ok ByInstance
    end.
  (** precise/keyed.py:37 and 40  calling the factory *)
  Definition make (f : factory) (proto : inst) : inst :=
    match f with ByClass P => new P | ByInstance => clone proto end.

  (** ** FixedUniverse *)
  (** the attributes of a FixedUniverse, precise/keyed.py:125-132 *)
  Record fixed := mkFixed {
    fx_fac : factory;
    fx_keys : option (list string);
    fx_impute : string;
    fx_core : option (inst * vec);        (* _est and _last, set together *)
  }.

  (** precise/keyed.py:125-132  [FixedUniverse.__init__] *)
  Definition fixed_new (f : factory) (extra : bool) (keys : option (list string)) (impute : string)
    : res fixed :=
    f' <- mk_factory f extra ;; Ok (mkFixed f' keys impute None).

  (** precise/keyed.py:146-151  the value written for a missing key at position [i] *)
  Definition fx_missing (est : inst) (impute : string) (i : nat) (last : vec) : res N :=
    if String.eqb impute "ffill" then Ok (nth i last n0)
    else if String.eqb impute "mean" then
      n <- n_samples_ est ;;
      if Nat.ltb 0 n then
        loc <- location_ est ;;
        match nth_error loc i with Some v => Ok v | None => Err IndexError end
      else Ok (nth i last n0)
    else Ok n0.

  (** precise/keyed.py:142-151  the loop over [self.keys]: new [_last] and [y] *)
  Fixpoint fx_loop (est : inst) (impute : string) (x : obs) (i : nat) (keys : list string)
    (last : vec) : vec * res vec :=
    match keys with
    | [] => (last, Ok [])
    | k :: ks =>
      match dget k x with
      | Some v =>
        let '(last', r) := fx_loop est impute x (S i) ks (list_set i v last) in
        (last', y <- r ;; Ok (v :: y))
      | None =>
        match fx_missing est impute i last with
        | Err e => (last, Err e)
        | Ok m =>
          let '(last', r) := fx_loop est impute x (S i) ks last in (last', y <- r ;; Ok (m :: y))
        end
      end
    end.

  (** precise/keyed.py:134-153  [FixedUniverse.update] *)
  Definition fixed_update (proto : inst) (u : fixed) (x : obs) : fixed * res unit :=
    let keys := match fx_keys u with Some ks => ks | None => obs_keys x end in
    let '(est, last) := match fx_core u with
                        | Some c => c
                        | None => (make (fx_fac u) proto, vzeros (length keys)) end in
    let '(last', ry) := fx_loop est (fx_impute u) x 0 keys last in
    match ry with
    | Err e => (mkFixed (fx_fac u) (Some keys) (fx_impute u) (Some (est, last')), Err e)
    | Ok y =>
      let '(est', r) := partial_fit est (In1 y) in
      (mkFixed (fx_fac u) (Some keys) (fx_impute u) (Some (est', last')), r)
    end.

  (** [cov[np.ix_(idx, idx)]] *)
  (** precise/keyed.py:161-162 *)
  Definition ix_ (cov : mat) (idx : list nat) : res mat :=
    mapM (fun i => match nth_error cov i with
                   | None => Err IndexError
                   | Some row => mapM (fun j => match nth_error row j with
                                                | None => Err IndexError | Some v => Ok v end) idx
                   end) idx.

  (** [list(a) == b] on lists of names *)
  (** precise/keyed.py:159 *)
  Fixpoint strs_eqb (a b : list string) : bool :=
    match a, b with
    | [], [] => true
    | x :: a', y :: b' => String.eqb x y && strs_eqb a' b'
    | _, _ => false
    end.

  (** precise/keyed.py:155-162  [FixedUniverse.cov_array] *)
  Definition fixed_cov_array (u : fixed) (keys : option (list string)) : res (mat * list string) :=
    match fx_core u, fx_keys u with
    | Some (est, _), Some ks =>
      cov <- covariance_ est ;;
      match keys with
      | None => Ok (cov, ks)
      | Some q =>
        if strs_eqb q ks then Ok (cov, ks)
        else idx <- mapM (fun k => index_of k ks) q ;; m <- ix_ cov idx ;; Ok (m, q)
      end
    | _, _ => Err ValueError
    end.

  (** ** DynamicUniverse *)
  (** precise/keyed.py:168-175  [_Universe] *)
  Record universe := mkU { u_keys : list string; u_stale : nat; u_long : nat; u_est : inst }.
  (** precise/keyed.py:171-175  [_Universe.__init__] *)
  Definition universe_new (keys : list string) (est : inst) : universe := mkU keys 0 0 est.

  (** [x[k]] *)
  (** precise/keyed.py:179 *)
  Definition obs_get (x : obs) (k : string) : res N :=
    match dget k x with Some v => Ok v | None => Err KeyError end.

  (** precise/keyed.py:177-181  [_Universe.update] *)
  Definition universe_update (u : universe) (x : obs) : universe * res unit :=
    match mapM (obs_get x) (u_keys u) with
    | Err e => (u, Err e)
    | Ok y =>
      match partial_fit (u_est u) (In1 y) with
      | (est', Err e) => (mkU (u_keys u) (u_stale u) (u_long u) est', Err e)
      | (est', Ok _) => (mkU (u_keys u) 0 (S (u_long u)) est', Ok tt)
      end
    end.

  (** precise/keyed.py:183-186  [_Universe.running_cov] *)
  Definition running_cov (u : universe) : res (option mat) :=
    n <- n_samples_ (u_est u) ;;
    if Nat.ltb 0 n then c <- covariance_ (u_est u) ;; Ok (Some c) else Ok None.

  (** the attributes of a DynamicUniverse, precise/keyed.py:205-220 *)
  Record dynamic := mkDyn {
    dy_fac : factory;
    dy_max_universes : Z;
    dy_max_staleness : Z;
    dy_states : list (nat * universe);    (* dict, in insertion order *)
    dy_x : option obs;
    dy_counter : nat;
  }.

  (** precise/keyed.py:205-220  [DynamicUniverse.__init__] *)
  Definition dynamic_new (f : factory) (extra : bool) (max_universes max_staleness : Z) : res dynamic :=
    f' <- mk_factory f extra ;; Ok (mkDyn f' max_universes max_staleness [] None 0).

  (** precise/keyed.py:230-234  the loop over the live universes *)
  Fixpoint dyn_loop (x : obs) (sts : list (nat * universe)) : list (nat * universe) * res unit :=
    match sts with
    | [] => ([], Ok tt)
    | (i, u) :: sts' =>
      if subset (u_keys u) (obs_keys x) then
        match universe_update u x with
        | (u', Err e) => ((i, u') :: sts', Err e)
        | (u', Ok _) => let '(r, o) := dyn_loop x sts' in ((i, u') :: r, o)
        end
      else
        let '(r, o) := dyn_loop x sts' in
        ((i, mkU (u_keys u) (S (u_stale u)) (u_long u) (u_est u)) :: r, o)
    end.

  (** precise/keyed.py:244-246  the sort key [(-staleness, longevity)]: is [a] strictly before [b]? *)
  Definition evict_before (a b : universe) : bool :=
    Nat.ltb (u_stale b) (u_stale a) ||
    (Nat.eqb (u_stale a) (u_stale b) && Nat.ltb (u_long a) (u_long b)).
  (** [sorted(...)[0]] of a stable sort: the first of the minimal elements *)
  (** precise/keyed.py:244-247 *)
  Fixpoint first_victim (best : nat * universe) (l : list (nat * universe)) : nat * universe :=
    match l with
    | [] => best
    | kv :: l' => first_victim (if evict_before (snd kv) (snd best) then kv else best) l'
    end.
  (** [del self.states[n]] *)
  (** precise/keyed.py:236-237, 247 *)
  Definition del_key (n : nat) (l : list (nat * universe)) : list (nat * universe) :=
    filter (fun kv => negb (Nat.eqb (fst kv) n)) l.

  (** precise/keyed.py:226-248  [DynamicUniverse.update] (with [_add_universe], lines 222-224) *)
  Definition dynamic_update (proto : inst) (d : dynamic) (x : obs) : dynamic * res unit :=
    let '(sts1, r) := dyn_loop x (dy_states d) in
    match r with
    | Err e => (mkDyn (dy_fac d) (dy_max_universes d) (dy_max_staleness d) sts1 (Some x) (dy_counter d), Err e)
    | Ok _ =>
      let sts2 := filter (fun kv => negb (Z.ltb (dy_max_staleness d) (Z.of_nat (u_stale (snd kv))))) sts1 in
      if existsb (fun kv => set_eq (obs_keys x) (u_keys (snd kv))) sts2 then
        (mkDyn (dy_fac d) (dy_max_universes d) (dy_max_staleness d) sts2 (Some x) (dy_counter d), Ok tt)
      else
        match universe_update (universe_new (obs_keys x) (make (dy_fac d) proto)) x with
        | (_, Err e) =>
          (mkDyn (dy_fac d) (dy_max_universes d) (dy_max_staleness d) sts2 (Some x) (dy_counter d), Err e)
        | (fresh, Ok _) =>
          let sts3 := (sts2 ++ [(dy_counter d, fresh)])%list in
          let sts4 :=
            if Z.ltb (dy_max_universes d) (Z.of_nat (length sts3)) then
              match sts3 with
              | [] => []
              | kv :: rest => del_key (fst (first_victim kv rest)) sts3
              end
            else sts3 in
          (mkDyn (dy_fac d) (dy_max_universes d) (dy_max_staleness d) sts4 (Some x) (S (dy_counter d)), Ok tt)
        end
    end.

  (** precise/keyed.py:250-255  [_resolve_keys] *)
  Definition resolve_keys (d : dynamic) (keys : option (list string)) : res (list string) :=
    match keys with
    | Some q => Ok q
    | None => match dy_x d with None => Err ValueError | Some x => Ok (obs_keys x) end
    end.

  (** precise/keyed.py:264-268  the candidate list for a pair; [running_cov] is evaluated (and may
      raise) only for universes containing both names *)
  Fixpoint candidates (ki kj : string) (sts : list (nat * universe)) : res (list universe) :=
    match sts with
    | [] => Ok []
    | (_, u) :: sts' =>
      if subset [ki; kj] (u_keys u) then
        rc <- running_cov u ;;
        rest <- candidates ki kj sts' ;;
        Ok (match rc with Some _ => u :: rest | None => rest end)
      else candidates ki kj sts'
    end.
  (** precise/keyed.py:270  the [max] key [(longevity, -staleness)]: is [a] strictly better than [b]? *)
  Definition better (a b : universe) : bool :=
    Nat.ltb (u_long b) (u_long a) ||
    (Nat.eqb (u_long a) (u_long b) && Nat.ltb (u_stale a) (u_stale b)).
  (** [max(candidates, key=...)]: the first of the maximal elements *)
  (** precise/keyed.py:270 *)
  Fixpoint best_of (b : universe) (l : list universe) : universe :=
    match l with [] => b | u :: l' => best_of (if better u b then u else b) l' end.

  (** [cov[a, b]] *)
  (** precise/keyed.py:271-274 *)
  Definition at2 (cov : mat) (a b : nat) : res N :=
    match nth_error cov a with
    | None => Err IndexError
    | Some row => match nth_error row b with None => Err IndexError | Some v => Ok v end
    end.
  (** precise/keyed.py:274: one assignment [M[i, j] = v] *)
  Definition mset (M : mat) (i j : nat) (v : N) : mat := list_set i (list_set j v (nth i M [])) M.

  (** precise/keyed.py:264-274  the loop body for the pair [ki, kj]; chained assignment writes the
      left target first *)
  Definition pair_step (sts : list (nat * universe)) (keys : list string) (M : mat) (ki kj : string)
    : res mat :=
    cs <- candidates ki kj sts ;;
    match cs with
    | [] => Ok M
    | u0 :: rest =>
      let u := best_of u0 rest in
      rc <- running_cov u ;;
      match rc with
      | None => Err AssertionError
      | Some cov =>
        a <- index_of ki (u_keys u) ;;
        b <- index_of kj (u_keys u) ;;
        v <- at2 cov a b ;;
        i <- last_index ki keys ;;
        j <- last_index kj keys ;;
        Ok (mset (mset M i j v) j i v)
      end
    end.
  (** precise/keyed.py:262-263  [for i, ki in enumerate(keys): for kj in keys[i:]] *)
  Fixpoint row_loop sts keys (M : mat) (ki : string) (kjs : list string) : res mat :=
    match kjs with
    | [] => Ok M
    | kj :: r => M' <- pair_step sts keys M ki kj ;; row_loop sts keys M' ki r
    end.
  (** precise/keyed.py:262-274  the outer loop *)
  Fixpoint pairs_loop sts keys (M : mat) (suffix : list string) : res mat :=
    match suffix with
    | [] => Ok M
    | ki :: r => M' <- row_loop sts keys M ki suffix ;; pairs_loop sts keys M' r
    end.

  (** precise/keyed.py:275-279  the fill value: [nanmean] of the off-diagonal entries, 0 if none *)
  Definition off_diag (n : nat) (M : mat) : vec :=
    concat (tab n (fun i => concat (tab n (fun j => if Nat.eqb i j then [] else [mget M i j])))).
  (** precise/keyed.py:275-278 *)
  Definition fill_value (n : nat) (M : mat) : N :=
    let known := filter (fun v => negb (nisnan v)) (off_diag n M) in
    match known with
    | [] => n0
    | _ => let f := vmean known in if nisnan f then n0 else f
    end.

  (** precise/keyed.py:261-279  the matrix assembled before projection *)
  Definition assemble (sts : list (nat * universe)) (keys : list string) : res mat :=
    let n := length keys in
    M <- pairs_loop sts keys (tab2 n n (fun _ _ => nnan)) keys ;;
    let fill := fill_value n M in
    Ok (mmap (fun v => if nisnan v then fill else v) M).

  (** precise/keyed.py:257-280  [DynamicUniverse.cov_array] *)
  Definition dynamic_cov_array (d : dynamic) (keys : option (list string)) : res (mat * list string) :=
    q <- resolve_keys d keys ;;
    M <- assemble (dy_states d) q ;;
    S <- to_symmetric M ;;
    P <- nearest_pos_def L fuel S ;;
    Ok (P, q).

  (** ** The shared surface (precise/keyed.py:43-108) *)
  Inductive adapter := AFixed (u : fixed) | ADynamic (d : dynamic).

  (** precise/keyed.py:286-309  [keyed]: adapter options only, [extra] marks estimator kwargs *)
  Definition keyed_fixed (f : factory) (extra : bool) keys impute : res adapter :=
    u <- fixed_new f extra keys impute ;; Ok (AFixed u).
  (** precise/keyed.py:286-309  [keyed] with dynamic=True *)
  Definition keyed_dynamic (f : factory) (extra : bool) mu ms : res adapter :=
    d <- dynamic_new f extra mu ms ;; Ok (ADynamic d).

  (** precise/keyed.py:53-54  [learn_one] *)
  Definition learn_one (proto : inst) (a : adapter) (x : obs) : adapter * res unit :=
    match a with
    | AFixed u => let '(u', r) := fixed_update proto u x in (AFixed u', r)
    | ADynamic d => let '(d', r) := dynamic_update proto d x in (ADynamic d', r)
    end.
  (** precise/keyed.py:56-59  [learn_many] *)
  Fixpoint learn_many (proto : inst) (a : adapter) (X : list obs) : adapter * res unit :=
    match X with
    | [] => (a, Ok tt)
    | x :: X' =>
      match learn_one proto a x with
      | (a', Ok _) => learn_many proto a' X'
      | (a', Err e) => (a', Err e)
      end
    end.
  (** precise/keyed.py:61-63: dispatch to the subclass *)
  Definition cov_array (a : adapter) (keys : option (list string)) : res (mat * list string) :=
    match a with AFixed u => fixed_cov_array u keys | ADynamic d => dynamic_cov_array d keys end.
  (** precise/keyed.py:65-66  [get_cov] *)
  Definition get_cov (a : adapter) (keys : option (list string)) : res mat :=
    r <- cov_array a keys ;; Ok (fst r).
  (** [np.fill_diagonal(corr, 1.0)] *)
  (** precise/keyed.py:71, 91 *)
  Definition fill_diagonal (m : mat) (v : N) : mat :=
    tab2 (nrows m) (ncols m) (fun i j => if Nat.eqb i j then v else mget m i j).
  (** precise/keyed.py:68-72  [get_corr] *)
  Definition get_corr (a : adapter) (keys : option (list string)) : res mat :=
    r <- cov_array a keys ;; c <- cov_to_corrcoef (fst r) ;; Ok (fill_diagonal c n1).
  (** precise/keyed.py:74-79  [_as_dict_of_dicts] *)
  Definition as_dict_of_dicts (m : mat) (keys : list string) : list (string * list (string * N)) :=
    fold_left (fun d p => dict_put (snd p)
                 (fold_left (fun e q => dict_put (snd q) (mget m (fst p) (fst q)) e)
                            (combine (seq 0 (length keys)) keys) []) d)
              (combine (seq 0 (length keys)) keys) [].
  (** precise/keyed.py:82-85  [covariance_] and 95-96 [covariance] *)
  Definition keyed_covariance_ (a : adapter) : res (list (string * list (string * N))) :=
    r <- cov_array a None ;; Ok (as_dict_of_dicts (fst r) (snd r)).
  (** precise/keyed.py:87-92  [correlation_] *)
  Definition keyed_correlation_ (a : adapter) : res (list (string * list (string * N))) :=
    r <- cov_array a None ;; c <- cov_to_corrcoef (fst r) ;;
    Ok (as_dict_of_dicts (fill_diagonal c n1) (snd r)).
End Keyed.
Arguments ByClass {N C}. Arguments ByInstance {N C}.
Arguments factory {N} C. Arguments fixed {N} C. Arguments universe {N} C. Arguments dynamic {N} C. Arguments adapter {N} C.
Arguments mkFixed {N C}. Arguments fx_fac {N C}. Arguments fx_keys {N C}. Arguments fx_impute {N C}. Arguments fx_core {N C}.
Arguments mkU {N C}. Arguments u_keys {N C}. Arguments u_stale {N C}. Arguments u_long {N C}. Arguments u_est {N C}.
Arguments mkDyn {N C}. Arguments dy_fac {N C}. Arguments dy_max_universes {N C}. Arguments dy_max_staleness {N C}.
Arguments dy_states {N C}. Arguments dy_x {N C}. Arguments dy_counter {N C}.
Arguments AFixed {N C}. Arguments ADynamic {N C}.

(** * Vocabulary for the properties of the keyed adapters (C50-C57)

    Nothing here models code. *)
From Coq Require Import ZArith Bool String List.
From Verif Require Import Num Numpy PyVal BaseModel KeyedModel Spec.
Import ListNotations.

(** A Python dict has distinct keys. *)
Definition is_dict {N} (x : obs N) : Prop := NoDup (obs_keys x).

Section KeyedSpec.
  Context {N : Num} {C : EstClass N}.
  Notation obs := (obs N).
  Notation inst := (inst C).

  (** [x] contains all of [ks]; its values listed in the order of [ks]. *)
  Definition has_all (ks : list string) (x : obs) : Prop := forall k, In k ks -> In k (obs_keys x).
  Definition values (ks : list string) (x : obs) : vec N :=
    map (fun k => match dget k x with Some v => v | None => n0 end) ks.

  (** The last value of [k] seen in a history, 0 if it was never seen. *)
  Fixpoint last_seen (k : string) (h : list obs) : N :=
    match h with
    | [] => n0
    | x :: h' => if existsb (fun y => mem k (obs_keys y)) h' then last_seen k h'
                 else match dget k x with Some v => v | None => last_seen k h' end
    end.

  (** Observation [x] of a history [h ++ [x]], completed with last seen values / with zeros. *)
  Definition ffilled (ks : list string) (h : list obs) (x : obs) : vec N :=
    map (fun k => last_seen k (h ++ [x])) ks.
  (** The whole history completed that way. *)
  Definition ffill_history (ks : list string) (h : list obs) : list (vec N) :=
    map (fun t => map (fun k => last_seen k (firstn (S t) h)) ks) (seq 0 (length h)).

  (** Running an adapter over a history of [learn_one] calls whose exceptions the caller catches. *)
  Fixpoint run_fixed (proto : inst) (u : fixed C) (h : list obs) : fixed C * list (res unit) :=
    match h with
    | [] => (u, [])
    | x :: h' =>
      let '(u', r) := fixed_update proto u x in
      let '(u'', rs) := run_fixed proto u' h' in (u'', r :: rs)
    end.
  Fixpoint run_dynamic (proto : inst) (d : dynamic C) (h : list obs) : dynamic C * list (res unit) :=
    match h with
    | [] => (d, [])
    | x :: h' =>
      let '(d', r) := dynamic_update proto d x in
      let '(d'', rs) := run_dynamic proto d' h' in (d'', r :: rs)
    end.
  Definition no_raise (rs : list (res unit)) : Prop := Forall (fun r => r = Ok tt) rs.

  (** The names of the universe: the [keys] argument, else the keys of the first observation. *)
  Definition universe_names (keys : option (list string)) (h : list obs) : list string :=
    match keys, h with
    | Some ks, _ => ks
    | None, x :: _ => obs_keys x
    | None, [] => []
    end.
  (** The wrapped positional estimator of a FixedUniverse that has been updated. *)
  Definition wrapped (u : fixed C) : option inst := option_map fst (fx_core u).

  (** Caller and adapter share the prototype: the caller may call its methods between updates. *)
  Inductive event := Learn (x : obs) | OnProto (c : call C).
  Fixpoint run_world (proto : inst) (a : adapter C) (evs : list event)
    : inst * adapter C * list (res unit) :=
    match evs with
    | [] => (proto, a, [])
    | Learn x :: evs' =>
      let '(a', r) := learn_one proto a x in
      let '(p'', a'', rs) := run_world proto a' evs' in (p'', a'', r :: rs)
    | OnProto c :: evs' => run_world (fst (do_call proto c)) a evs'
    end.
  Definition learned (evs : list event) : list obs :=
    flat_map (fun e => match e with Learn x => [x] | OnProto _ => [] end) evs.
  Definition on_proto (evs : list event) : list (call C) :=
    flat_map (fun e => match e with Learn _ => [] | OnProto c => [c] end) evs.
  (** The caller never changes the prototype's parameters. *)
  Definition params_kept (evs : list event) : Prop :=
    Forall (fun e => match e with OnProto (SetParams _ _) => False | _ => True end) evs.
  Fixpoint run_adapter (proto : inst) (a : adapter C) (h : list obs) : adapter C * list (res unit) :=
    match h with
    | [] => (a, [])
    | x :: h' =>
      let '(a', r) := learn_one proto a x in
      let '(a'', rs) := run_adapter proto a' h' in (a'', r :: rs)
    end.

  (** ** DynamicUniverse: the history of one universe *)
  Definition contains_all (ks : list string) (x : obs) : bool := forallb (fun k => mem k (obs_keys x)) ks.
  (** Number of observations at the end of a history that do not contain all of [ks]. *)
  Fixpoint idle_since (ks : list string) (h : list obs) : nat :=
    match h with
    | [] => 0
    | x :: h' => if existsb (contains_all ks) h' then idle_since ks h'
                 else if contains_all ks x then length h' else S (length h')
    end.
End KeyedSpec.
Arguments event {N} C. Arguments Learn {N C}. Arguments OnProto {N C}.
Section DynSpec.
  Context {N : Num} {C : EstClass N}.
  (** The adapter after a history of updates; the universe numbered [i] is live. *)
  Definition after (proto : inst C) (d : dynamic C) (h : list (obs N)) : dynamic C := fst (run_dynamic proto d h).
  Definition live (d : dynamic C) (i : nat) : Prop := In i (map fst (dy_states d)).
  (** Some live universe has exactly this set of names. *)
  Definition tracks (d : dynamic C) (ks : list string) : Prop :=
    exists i u, In (i, u) (dy_states d) /\ forall k, In k (u_keys u) <-> In k ks.
End DynSpec.

(** ** DynamicUniverse: the assembled matrix (C56) *)
Section AssembleSpec.
  Context {N : Num} {C : EstClass N}.
  (** Universes holding data on both names, in order of creation. *)
  Definition has_data (u : universe C) : bool :=
    match n_samples_ (u_est u) with Ok n => Nat.ltb 0 n | Err _ => false end.
  Definition holders (d : dynamic C) (ka kb : string) : list (universe C) :=
    filter (fun u => mem ka (u_keys u) && mem kb (u_keys u) && has_data u) (map snd (dy_states d)).
  (** Longer lived, or as long lived and less idle. *)
  Definition outranks (a b : universe C) : Prop :=
    u_long b < u_long a \/ (u_long a = u_long b /\ u_stale a < u_stale b).
  (** [u] is the best of a list: it outranks everything before it and nothing after it outranks it. *)
  Definition is_best (u : universe C) (l : list (universe C)) : Prop :=
    exists l1 l2, l = (l1 ++ u :: l2)%list /\ Forall (fun v => outranks u v) l1 /\ Forall (fun v => ~ outranks v u) l2.
  (** The entry [v] of the matrix of universe [u] for the names [ka], [kb]. *)
  Definition reads (u : universe C) (ka kb : string) (v : N) : Prop :=
    exists cov i j, covariance_ (u_est u) = Ok cov /\
      nth_error (u_keys u) i = Some ka /\ nth_error (u_keys u) j = Some kb /\ v = mget cov i j.
  (** What is known about a pair of names: a number read from its best holder, or nothing. *)
  Definition knows (d : dynamic C) (ka kb : string) (r : option N) : Prop :=
    (holders d ka kb = [] /\ r = None) \/
    (exists u v, is_best u (holders d ka kb) /\ reads u ka kb v /\ r = if nisnan v then None else Some v).
  (** The mean of the off-diagonal numbers of an n x n table of things known, 0 if there are none
      (or if their mean is not a number). *)
  Definition off_diagonal_mean (n : nat) (know : nat -> nat -> option N) : N :=
    let vals := flat_map (fun a => flat_map (fun b => if Nat.eqb a b then [] else
                  match know a b with Some v => [v] | None => [] end) (seq 0 n)) (seq 0 n) in
    match vals with
    | [] => n0
    | _ => let m := vmean vals in if nisnan m then n0 else m
    end.
  (** Every (non-empty) universe can be read, and its matrix has the right shape. *)
  Definition readable (d : dynamic C) : Prop :=
    Forall (fun kv => let u := snd kv in u_keys u <> [] -> NoDup (u_keys u) /\ exists n, n_samples_ (u_est u) = Ok n /\
      (1 <= n -> exists cov, covariance_ (u_est u) = Ok cov /\
         length cov = length (u_keys u) /\ Forall (fun row => length row = length (u_keys u)) cov)) (dy_states d).
End AssembleSpec.

(** * Model of the constructors and of get_params / set_params / _clone / __repr__ (parameters by name)

    precise/base.py:125-137, 178-180; precise/keyed.py:29-31; the [__init__] of the registered classes.
    An instance is its attribute dictionary (hyper-parameters, and whatever names [set_params] was given) plus the three
    attributes that hold data.  Hyper-parameters are Python values: nothing is checked or converted when they are stored. *)
From Coq Require Import ZArith Bool String List.
From Verif Require Import Num Numpy PyVal LinalgModel BaseModel Estimators RegistryModel.
Import ListNotations.
Local Open Scope string_scope.

(** The Python values used as hyper-parameters *)
(** the values stored by the [__init__] methods, e.g. precise/ewa.py:23-26 *)
Inductive pyv (N : Num) := PvNum (x : N) | PvInt (z : Z) | PvBool (b : bool) | PvStr (s : string) | PvNone.
Arguments PvNum {N}. Arguments PvInt {N}. Arguments PvBool {N}. Arguments PvStr {N}. Arguments PvNone {N}.
(** A dict of keyword arguments (unique keys are the caller's business: Python guarantees them) *)
(** [**params] of precise/base.py:134 *)
Definition kwargs (N : Num) := list (string * pyv N).

(** [setattr]: replace, or add at the end *)
(** precise/base.py:136 *)
Fixpoint kset {A} (k : string) (v : A) (d : list (string * A)) : list (string * A) :=
  match d with
  | [] => [(k, v)]
  | (k', v') :: d' => if String.eqb k k' then (k', v) :: d' else (k', v') :: kset k v d'
  end.

(** A registered class with its constructor: the parameters in order with their defaults, and how the methods read the
    attributes.  Simplification: an attribute of a type the code cannot use (a str for a rate, ...) gives no [inst]: what the
    methods then do is not modelled. *)
(** the [__init__] of a registered class (lines cited at each entry of [signatures]) *)
Record Signed (N : Num) := mkSigned {
  sg_class : EstClass N;
  sg_params : kwargs N;
  sg_read : kwargs N -> option (c_P sg_class);
  sg_show : c_P sg_class -> kwargs N;
}.
Arguments mkSigned {N}. Arguments sg_class {N}. Arguments sg_params {N}. Arguments sg_read {N}. Arguments sg_show {N}.

Section Read.
  Context {N : Num}.
  (** [self.r] used as a number: Python ints and bools are numbers too *)
  (** e.g. precise/ewa.py:28-29 *)
  Definition rd_num (k : string) (d : kwargs N) : option N :=
    match dget k d with
    | Some (PvNum x) => Some x
    | Some (PvInt z) => Some (nofZ z)
    | Some (PvBool b) => Some (nofZ (if b then 1 else 0)%Z)
    | _ => None
    end.
  (** [self.n_blocks] and [self.k] in [min]/[max], precise/block_covariance.py:41, precise/factor.py:32 *)
  Definition rd_int (k : string) (d : kwargs N) : option Z :=
    match dget k d with
    | Some (PvInt z) => Some z
    | Some (PvBool b) => Some (if b then 1 else 0)%Z
    | _ => None
    end.
  (** [getattr(self, "diff", False)] in a truth context: [bool(value)] (NaN is true) *)
  (** precise/base.py:52 *)
  Definition rd_bool (k : string) (d : kwargs N) : option bool :=
    match dget k d with
    | Some (PvBool b) => Some b
    | Some PvNone => Some false
    | Some (PvStr s) => Some (negb (String.eqb s ""))
    | Some (PvInt z) => Some (negb (Z.eqb z 0))
    | Some (PvNum x) => Some (negb (nleb x n0 && nleb n0 x))
    | None => None
    end.
  (** [self.target], [self.interpolation], precise/shrunk.py:50, precise/schurcov.py:55 *)
  Definition rd_str (k : string) (d : kwargs N) : option string :=
    match dget k d with Some (PvStr s) => Some s | _ => None end.
  (** [self.vol_r is None], precise/dcc.py:32-39 *)
  Definition rd_optnum (k : string) (d : kwargs N) : option (option N) :=
    match dget k d with Some PvNone => Some None | _ => option_map Some (rd_num k d) end.
End Read.
Notation "'let?' x := a 'in' b" := (match a with Some x => b | None => None end) (at level 200, x name, a at level 100, b at level 200).

Section Signatures.
  Context {N : Num} (L : LinAlg N) (fuel : nat).
  (** the default r=0.05, e.g. precise/ewa.py:23 *)
  Definition p_r : string * pyv N := ("r", PvNum (nlit 5 2)).
  (** the default diff=False, e.g. precise/empirical.py:23 *)
  Definition p_diff : string * pyv N := ("diff", PvBool false).
  (** the default n_blocks=4, e.g. precise/block_covariance.py:34 *)
  Definition p_blocks : string * pyv N := ("n_blocks", PvInt 4).
  (** [__init__(self, r=0.05, diff=False)] *)
  (** e.g. precise/ewa.py:23-26 *)
  Definition read_ewa (d : kwargs N) : option (EwaP (N := N)) :=
    let? r := rd_num "r" d in let? b := rd_bool "diff" d in Some (mkEwaP r b).
  (** e.g. precise/ewa.py:23-26, as [get_params] shows it (precise/base.py:131-132) *)
  Definition show_ewa (P : EwaP (N := N)) : kwargs N := [("r", PvNum (ewa_r P)); ("diff", PvBool (ewa_diff P))].
  (** [__init__(self, r=0.05, n_blocks=4, diff=False)] *)
  (** e.g. precise/block_covariance.py:34-38 *)
  Definition read_blk (d : kwargs N) : option (BlkP (N := N)) :=
    let? r := rd_num "r" d in let? n := rd_int "n_blocks" d in let? b := rd_bool "diff" d in Some (mkBlkP r n b).
  (** e.g. precise/block_covariance.py:34-38, as [get_params] shows it (precise/base.py:131-132) *)
  Definition show_blk (P : BlkP (N := N)) : kwargs N :=
    [("r", PvNum (blk_r P)); ("n_blocks", PvInt (blk_n_blocks P)); ("diff", PvBool (blk_diff P))].

  (** The constructors, in registry order *)
  (** precise/registry.py:30-48 *)
  Definition signatures : list (Signed N) :=
    [ (* precise/empirical.py:23-25 *)
      mkSigned Empirical [p_diff] (fun d => let? b := rd_bool "diff" d in Some (mkEmpP b)) (fun P => [("diff", PvBool (emp_diff P))]);
      (* precise/diagonal.py:23-26 *)
      mkSigned Diagonal [p_r; p_diff] read_ewa show_ewa;
      (* precise/block_covariance.py:34-38 *)
      mkSigned (Block L) [p_r; p_blocks; p_diff] read_blk show_blk;
      (* precise/ewa.py:23-26 *)
      mkSigned Ewa [p_r; p_diff] read_ewa show_ewa;
      (* precise/adaptive.py:26-30 *)
      mkSigned (Adaptive L) [p_r; ("max_r", PvNum (nlit 5 1)); p_diff]
        (fun d => let? r := rd_num "r" d in let? m := rd_num "max_r" d in let? b := rd_bool "diff" d in Some (mkAdaP r m b))
        (fun P => [("r", PvNum (ada_r P)); ("max_r", PvNum (ada_max_r P)); ("diff", PvBool (ada_diff P))]);
      (* precise/ledoitwolf.py:24-27 *)
      mkSigned LedoitWolf [p_r; p_diff] read_ewa show_ewa;
      (* precise/oas.py:25-28 *)
      mkSigned OAS [p_r; p_diff] read_ewa show_ewa;
      (* precise/shrunk.py:28-39 *)
      mkSigned Shrunk [p_r; ("delta", PvNum (nlit 1 1)); ("target", PvStr "constant_correlation"); p_diff]
        (fun d => let? r := rd_num "r" d in let? x := rd_num "delta" d in let? t := rd_str "target" d in let? b := rd_bool "diff" d in
                  Some (mkShrP r x t b))
        (fun P => [("r", PvNum (shr_r P)); ("delta", PvNum (shr_delta P)); ("target", PvStr (shr_target P)); ("diff", PvBool (shr_diff P))]);
      (* precise/schurcov.py:32-39 *)
      mkSigned (Schur L) [p_r; p_blocks; ("gamma", PvNum (nlit 5 1)); ("interpolation", PvStr "linear"); p_diff]
        (fun d => let? r := rd_num "r" d in let? n := rd_int "n_blocks" d in let? g := rd_num "gamma" d in
                  let? t := rd_str "interpolation" d in let? b := rd_bool "diff" d in Some (mkSchP r n g t b))
        (fun P => [("r", PvNum (sch_r P)); ("n_blocks", PvInt (sch_n_blocks P)); ("gamma", PvNum (sch_gamma P));
                   ("interpolation", PvStr (sch_interp P)); ("diff", PvBool (sch_diff P))]);
      (* precise/schur_conditional.py:39-44 *)
      mkSigned (SchurCond L) [p_r; p_blocks; p_diff] read_blk show_blk;
      (* precise/schur_ledoit_wolf.py:38-43 *)
      mkSigned (SchurLW L) [p_r; p_blocks; p_diff] read_blk show_blk;
      (* precise/partialmoments.py:28-31 *)
      mkSigned (PartialMoments L fuel) [p_r; p_diff] read_ewa show_ewa;
      (* precise/huber.py:27-31 *)
      mkSigned (Huber L) [p_r; ("c", PvNum (nlit 25 1)); p_diff]
        (fun d => let? r := rd_num "r" d in let? c := rd_num "c" d in let? b := rd_bool "diff" d in Some (mkHubP r c b))
        (fun P => [("r", PvNum (hub_r P)); ("c", PvNum (hub_c P)); ("diff", PvBool (hub_diff P))]);
      (* precise/tyler.py:28-31 *)
      mkSigned (Tyler L) [p_r; p_diff] read_ewa show_ewa;
      (* precise/geodesic.py:31-34 *)
      mkSigned (Geodesic L) [p_r; p_diff] read_ewa show_ewa;
      (* precise/dcc.py:26-30 *)
      mkSigned DCC [p_r; ("vol_r", PvNone); p_diff]
        (fun d => let? r := rd_num "r" d in let? v := rd_optnum "vol_r" d in let? b := rd_bool "diff" d in Some (mkDccP r v b))
        (fun P => [("r", PvNum (dcc_r P)); ("vol_r", match dcc_vol_r P with Some v => PvNum v | None => PvNone end); ("diff", PvBool (dcc_diff P))]);
      (* precise/factor.py:25-29 *)
      mkSigned Factor [("k", PvInt 2); p_r; p_diff]
        (fun d => let? k := rd_int "k" d in let? r := rd_num "r" d in let? b := rd_bool "diff" d in Some (mkFacP k r b))
        (fun P => [("k", PvInt (fac_k P)); ("r", PvNum (fac_r P)); ("diff", PvBool (fac_diff P))]) ].
End Signatures.

Section Objects.
  Context {N : Num} (k : Signed N).
  (** precise/base.py:126-129  [_param_names] *)
  Definition param_names : list string := map fst (sg_params k).

  (** An instance: [__dict__] without the three data attributes, which are kept apart *)
  (** precise/base.py:31-34 *)
  Record pobj := mkPobj {
    ob_attrs : kwargs N;
    ob_state : option (c_St (sg_class k)); ob_nfeat : option nat; ob_prev : option (vec N) }.
  (** what the modelled methods see *)
  (** no counterpart in /repo: an instance of BaseModel.v read off the attributes *)
  Definition view (o : pobj) : option (inst (sg_class k)) :=
    option_map (fun P => mkInst P (ob_state o) (ob_nfeat o) (ob_prev o)) (sg_read k (ob_attrs o)).
  (** running a method that mutates the instance: hyper-parameters are not assigned by any of them *)
  (** no counterpart in /repo: the attributes precise/base.py:53-62, 67-68, 151-161 assign *)
  Definition with_data (o : pobj) (i : inst (sg_class k)) : pobj := mkPobj (ob_attrs o) (i_state i) (i_nfeat i) (i_prev i).

  (** [Class( **kw)]: an unknown keyword is a TypeError; every parameter is stored as given, or its default *)
  (** the [__init__] methods, e.g. precise/ewa.py:23-26 *)
  Definition construct (kw : kwargs N) : res pobj :=
    if forallb (fun e => existsb (String.eqb (fst e)) param_names) kw
    then Ok (mkPobj (map (fun e => (fst e, match dget (fst e) kw with Some v => v | None => snd e end)) (sg_params k)) None None None)
    else Err TypeError.
  (** precise/base.py:126-132  [_param_names], [get_params]: one attribute per constructor parameter, in order *)
  Definition get_params (o : pobj) : res (kwargs N) :=
    mapM (fun n => match dget n (ob_attrs o) with Some v => Ok (n, v) | None => Err AttributeError end) param_names.
  (** The read-only properties (precise/base.py:81-102): [setattr] raises AttributeError *)
  Definition properties : list string := ["n_samples_"; "location_"; "covariance_"; "correlation_"; "precision_"].
  (** precise/base.py:134-137  [set_params]: one [setattr] per keyword, in order; what was set before an exception stays.
      Simplification: names of methods and of the data attributes ([internal]) are stored like any other name; assigning them
      would replace the method or the data of the instance, which is not modelled. *)
  Definition internal : list string :=
    ["_state"; "n_features_in_"; "_prev_x"; "__class__"; "__dict__"; "partial_fit"; "fit"; "get_precision"; "mahalanobis"; "score"; "get_params"; "set_params";
     "get_state"; "set_state"; "__getstate__"; "__setstate__"; "_param_names"; "_fitted_state"; "_init_state"; "_update_state";
     "_state_to_cov"; "_state_to_mean"; "_slices"; "_block_id"; "_cross_mask"; "_pd_block"; "_n_eff"; "_gamma_star"; "_DETECT"; "gamma_"].
  (** precise/base.py:134-137  [set_params] *)
  Fixpoint set_params (o : pobj) (kw : kwargs N) : pobj * res unit :=
    match kw with
    | [] => (o, Ok tt)
    | (n, v) :: kw' =>
      if existsb (String.eqb n) properties then (o, Err AttributeError)
      else set_params (mkPobj (kset n v (ob_attrs o)) (ob_state o) (ob_nfeat o) (ob_prev o)) kw'
    end.
  (** precise/keyed.py:29-31 and precise/conditional.py:31-32  [_clone] *)
  Definition clone (o : pobj) : res pobj := kw <- get_params o ;; construct kw.
  (** precise/base.py:178-180  [__repr__], for any printer of values *)
  Fixpoint join (sep : string) (l : list string) : string :=
    match l with [] => "" | [x] => x | x :: l' => x ++ sep ++ join sep l' end.
  (** precise/base.py:178-180  [__repr__] *)
  Definition repr (show : pyv N -> string) (o : pobj) : res string :=
    ps <- get_params o ;;
    Ok (c_name (sg_class k) ++ "(" ++ join ", " (map (fun e => fst e ++ "=" ++ show (snd e)) ps) ++ ")").
End Objects.
Arguments mkPobj {N k}. Arguments ob_attrs {N k}. Arguments ob_state {N k}. Arguments ob_nfeat {N k}. Arguments ob_prev {N k}.

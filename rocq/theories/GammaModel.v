(** * The attribute gamma_ of SchurLedoitWolfCovariance and SchurConditionalCovariance

    Everywhere else reads are functions of the instance.  These two classes also assign [self.gamma_] while
    [_state_to_cov] runs, so here an object is an instance together with the current value of that attribute, and
    every public method is a state transformer. *)
From Coq Require Import ZArith Bool String List.
From Verif Require Import Num Numpy PyVal LinalgModel StateModel BaseModel Estimators.
Import ListNotations.

(** a class together with its [_state_to_cov]: the value assigned to [gamma_] (None: it raised before the
    assignment) and the returned matrix *)
(** precise/schur_ledoit_wolf.py:79-88, precise/schur_conditional.py:81-111 *)
Record GClass (N : Num) (L : LinAlg N) := mkGClass {
  gc_class : EstClass N;
  gc_hook : c_P gc_class -> c_St gc_class -> option N * res (mat N) }.
Arguments mkGClass {N} L _ _.
Arguments gc_class {N L} _.
Arguments gc_hook {N L} _ _ _.
(** precise/schur_ledoit_wolf.py:85, precise/schur_conditional.py:89: the assignment to [self.gamma_] is reached *)
Definition assigned {A} (r : res A) : option A := match r with Ok g => Some g | Err _ => None end.
(** precise/schur_ledoit_wolf.py:79-88 *)
Definition GSchurLW {N : Num} (L : LinAlg N) : GClass N L :=
  mkGClass L (SchurLW L) (fun P s => (assigned (slw_gamma P s), slw_cov L P s)).
(** precise/schur_conditional.py:81-111 *)
Definition GSchurCond {N : Num} (L : LinAlg N) : GClass N L :=
  mkGClass L (SchurCond L) (fun P s => (assigned (sc_gamma P s), sc_cov L P s)).

Section Gamma.
  Context {N : Num} (L : LinAlg N) (G : GClass N L).
  Notation C := (gc_class G).
  Notation mat := (mat N).
  Notation vec := (vec N).

  (** an instance with the attribute [gamma_] of precise/schur_ledoit_wolf.py:42, precise/schur_conditional.py:43 *)
  Record gobj := mkG { g_inst : inst C; gamma_ : option N }.
  (** precise/schur_ledoit_wolf.py:38-43, precise/schur_conditional.py:39-44  [__init__] *)
  Definition g_new (P : c_P C) : gobj := mkG (new P) None.
  (** precise/base.py:91-94  [covariance_] around the hook *)
  Definition g_covariance (o : gobj) : gobj * res mat :=
    match fitted_state (g_inst o) with
    | Err e => (o, Err e)
    | Ok s =>
      let '(g, r) := gc_hook G (i_params (g_inst o)) s in
      (mkG (g_inst o) (match g with Some x => Some x | None => gamma_ o end), c <- r ;; to_symmetric c)
    end.
  (** precise/base.py:96-98 *)
  Definition g_correlation (o : gobj) : gobj * res mat :=
    let '(o, r) := g_covariance o in (o, c <- r ;; cov_to_corrcoef c).
  (** precise/base.py:100-105  [precision_], [get_precision] (neither class overrides them) *)
  Definition g_precision (o : gobj) : gobj * res mat :=
    let '(o, r) := g_covariance o in (o, c <- r ;; try_invert L c).
  (** precise/base.py:108-113 *)
  Definition g_mahalanobis (o : gobj) (X : input N) : gobj * res vec :=
    match as_rows X with
    | Err e => (o, Err e)
    | Ok rows =>
      let '(o, r) := g_precision o in
      (o, prec <- r ;; loc <- location_ (g_inst o) ;; mapM (fun row => c <- vsub row loc ;; einsum_quad c prec) rows)
    end.
  (** precise/base.py:115-123 *)
  Definition g_score (o : gobj) (X : input N) : gobj * res N :=
    match as_rows X with
    | Err e => (o, Err e)
    | Ok rows =>
      let '(o, r) := g_precision o in
      match (prec <- r ;; la_slogdet L prec) with
      | Err e => (o, Err e)
      | Ok (_, logdet) =>
        let '(o, q) := g_mahalanobis o (In2 rows) in
        let half := nlit 5 1 in
        (o, quad <- q ;;
            Ok (vmean (map (fun q => nsub (nsub (nmul half logdet) (nmul half q)) (nmul (nmul half (nofn (ncols rows))) (la_log2pi L))) quad)))
      end
    end.
  (** precise/base.py:163-176  pickling and unpickling: [__setstate__] calls [__init__], which resets [gamma_] *)
  Definition g_pickle (o : gobj) : res gobj :=
    d <- getstate (g_inst o) ;; i <- setstate d ;; Ok (mkG i None).
  (** precise/keyed.py:29-31  [_clone] *)
  Definition g_clone (o : gobj) : gobj := g_new (i_params (g_inst o)).

  (** The public methods; a program catches what a call raises and goes on.  Simplification: a [set_state] that
      raises is taken to leave the object as it was. *)
  (** precise/base.py:50-161: the public methods *)
  Inductive gop :=
  | GPartialFit (X : input N) | GFit (X : input N) | GSetParams (P : c_P C) | GSetState (j : option (jdict N))
  | GCovariance | GCorrelation | GPrecision | GMahalanobis (X : input N) | GScore (X : input N)
  | GLocation | GNSamples | GGetState.
  (** precise/base.py:50-161: what the public methods return *)
  Inductive gout := OUnit (r : res unit) | OMat (r : res mat) | OVec (r : res vec) | ONum (r : res N)
  | ONat (r : res nat) | OState (r : res (option (jdict N))).
  (** precise/base.py:50-161: one call of a public method *)
  Definition g_step (o : gobj) (c : gop) : gobj * gout :=
    match c with
    | GPartialFit X => let '(i, r) := partial_fit (g_inst o) X in (mkG i (gamma_ o), OUnit r)
    | GFit X => let '(i, r) := fit (g_inst o) X in (mkG i (gamma_ o), OUnit r)
    | GSetParams P => (mkG (set_params (g_inst o) P) (gamma_ o), OUnit (Ok tt))
    | GSetState j => match set_state (g_inst o) j with
                     | Ok i => (mkG i (gamma_ o), OUnit (Ok tt))
                     | Err e => (o, OUnit (Err e))
                     end
    | GCovariance => let '(o, r) := g_covariance o in (o, OMat r)
    | GCorrelation => let '(o, r) := g_correlation o in (o, OMat r)
    | GPrecision => let '(o, r) := g_precision o in (o, OMat r)
    | GMahalanobis X => let '(o, r) := g_mahalanobis o X in (o, OVec r)
    | GScore X => let '(o, r) := g_score o X in (o, ONum r)
    | GLocation => (o, OVec (location_ (g_inst o)))
    | GNSamples => (o, ONat (n_samples_ (g_inst o)))
    | GGetState => (o, OState (get_state (g_inst o)))
    end.
  (** no counterpart in /repo: the program of the caller *)
  Fixpoint g_run (o : gobj) (cs : list gop) : gobj * list gout :=
    match cs with
    | [] => (o, [])
    | c :: cs' => let '(o1, r) := g_step o c in let '(o2, rs) := g_run o1 cs' in (o2, r :: rs)
    end.
End Gamma.
Arguments mkG {N L G} _ _. Arguments g_inst {N L G} _. Arguments gamma_ {N L G} _. Arguments gop {N L} G. Arguments gobj {N L} G.
Arguments g_new {N L G} _. Arguments g_run {N L G} _ _. Arguments g_step {N L G} _ _. Arguments g_clone {N L G} _. Arguments g_pickle {N L G} _.
Arguments GPartialFit {N L G} _. Arguments GFit {N L G} _. Arguments GSetParams {N L G} _. Arguments GSetState {N L G} _.
Arguments GCovariance {N L G}. Arguments GCorrelation {N L G}. Arguments GPrecision {N L G}. Arguments GMahalanobis {N L G} _.
Arguments GScore {N L G} _. Arguments GLocation {N L G}. Arguments GNSamples {N L G}. Arguments GGetState {N L G}.
Arguments g_covariance {N L G} _. Arguments g_correlation {N L G} _. Arguments g_precision {N L G} _.
Arguments g_mahalanobis {N L G} _ _. Arguments g_score {N L G} _ _.

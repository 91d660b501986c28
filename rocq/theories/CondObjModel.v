(** * Model of the rest of precise/conditional.py: the object with its constructor arguments, what it inherits from
    precise/base.py, and pickling *)
From Coq Require Import ZArith Bool String List.
From Verif Require Import Num Numpy PyVal LinalgModel BaseModel ConditionalModel.
Import ListNotations.

Section Reads.
  Context {N : Num} (L : LinAlg N) {V : VolModel N} {C : EstClass N}.
  Notation cond := (cond V C).
  (** precise/base.py:96-98  [correlation_], inherited *)
  Definition cond_correlation (c : cond) : res (mat N) := H <- cond_covariance V c ;; cov_to_corrcoef H.
  (** precise/base.py:100-105  [precision_] and [get_precision], inherited *)
  Definition cond_precision (c : cond) : res (mat N) := H <- cond_covariance V c ;; try_invert L H.
  (** precise/base.py:108-113  [mahalanobis], inherited *)
  Definition cond_mahalanobis (c : cond) (X : input N) : res (vec N) :=
    rows <- as_rows X ;;
    prec <- cond_precision c ;;
    loc <- cond_location V c ;;
    mapM (fun row => c <- vsub row loc ;; einsum_quad c prec) rows.
  (** precise/base.py:115-123  [score], inherited *)
  Definition cond_score (c : cond) (X : input N) : res N :=
    rows <- as_rows X ;;
    prec <- cond_precision c ;;
    '(_, logdet) <- la_slogdet L prec ;;
    let p := ncols rows in
    quad <- cond_mahalanobis c (In2 rows) ;;
    let half := nlit 5 1 in
    let ll := map (fun q => nsub (nsub (nmul half logdet) (nmul half q))
                                 (nmul (nmul half (nofn p)) (la_log2pi L))) quad in
    Ok (vmean ll).
End Reads.

(** pickle.loads(pickle.dumps(e)) of a positional estimator *)
(** precise/base.py:163-176  [__getstate__] then [__setstate__] *)
Definition pickle_est {N : Num} {C : EstClass N} (e : inst C) : res (inst C) := d <- getstate e ;; setstate d.
(** precise/conditional.py:122-123: attributes that are None until the first row arrives *)
Definition pickle_opt {A B} (f : A -> res B) (o : option A) : res (option B) :=
  match o with None => Ok None | Some a => b <- f a ;; Ok (Some b) end.

(** pickle.loads(pickle.dumps(c)) of the mutable attributes: [__dict__] is pickled, so [_state] (an int, an int and two
    arrays) and [n_features_in_] come back as they are, the sub-models go through their own pickling; [pv] is that of one
    volatility model.  Simplification: which objects were shared is not kept. *)
(** precise/conditional.py:173-177  [__getstate__] then [__setstate__] *)
Definition pickle_cond {N : Num} {V V' : VolModel N} {C : EstClass N} (pv : vm_St V -> res (vm_St V')) (c : cond V C) : res (cond V' C) :=
  vs <- pickle_opt (mapM pv) (cd_vols c) ;;
  cm <- pickle_opt pickle_est (cd_corr c) ;;
  Ok (mkCond (cd_nfeat c) (cd_state c) vs cm).

(** ** ConditionalCovariance(vol=<estimator>, corr=<estimator>) *)
(** precise/conditional.py:118-123  the object with its constructor arguments [vol] and [corr] *)
Record cobj {N : Num} (Cv C : EstClass N) := mkCobj { co_vol : inst Cv; co_corr : inst C; co_cond : cond (vol_of_estimator co_vol) C }.
Arguments mkCobj {N Cv C}. Arguments co_vol {N Cv C}. Arguments co_corr {N Cv C}. Arguments co_cond {N Cv C}.

Section Obj.
  Context {N : Num} {Cv C : EstClass N}.
  (** precise/conditional.py:118-123  construction *)
  Definition co_new (vol : inst Cv) (corr : inst C) : cobj Cv C := mkCobj vol corr (cond_new _).
  (** precise/conditional.py:133-153  [partial_fit] *)
  Definition co_partial_fit (o : cobj Cv C) (X : input N) : cobj Cv C * res unit :=
    let '(c, r) := cond_partial_fit (vol_of_estimator (co_vol o)) (co_corr o) (co_cond o) X in (mkCobj (co_vol o) (co_corr o) c, r).
  (** precise/base.py:65-72  [fit], inherited *)
  Definition co_fit (o : cobj Cv C) (X : input N) : cobj Cv C * res unit :=
    let '(c, r) := cond_fit (vol_of_estimator (co_vol o)) (co_corr o) (co_cond o) X in (mkCobj (co_vol o) (co_corr o) c, r).
  (** precise/base.py:134-137  [set_params(vol=...)], inherited.  Simplification: the new template is of the same class *)
  Definition co_set_vol (o : cobj Cv C) (vol : inst Cv) : cobj Cv C :=
    mkCobj vol (co_corr o) (mkCond (V := vol_of_estimator vol) (cd_nfeat (co_cond o)) (cd_state (co_cond o)) (cd_vols (co_cond o)) (cd_corr (co_cond o))).
  (** precise/base.py:134-137  [set_params(corr=...)], inherited.  Simplification: the new template is of the same class *)
  Definition co_set_corr (o : cobj Cv C) (corr : inst C) : cobj Cv C := mkCobj (co_vol o) corr (co_cond o).
  (** precise/conditional.py:31-32  [_clone]: type(est) called with get_params(), that is the same two templates *)
  Definition co_clone (o : cobj Cv C) : cobj Cv C := co_new (co_vol o) (co_corr o).
  (** precise/conditional.py:173-177  pickle.loads(pickle.dumps(o)): both templates and the mutable attributes *)
  Definition co_pickle (o : cobj Cv C) : res (cobj Cv C) :=
    vol <- pickle_est (co_vol o) ;;
    corr <- pickle_est (co_corr o) ;;
    c <- pickle_cond (V := vol_of_estimator (co_vol o)) (V' := vol_of_estimator vol) pickle_est (co_cond o) ;;
    Ok (mkCobj vol corr c).
  (** precise/base.py:83-85  [n_samples_], inherited *)
  Definition co_n_samples (o : cobj Cv C) : nat := cond_n_samples _ (co_cond o).
End Obj.

(** * Model of precise/registry.py *)
From Coq Require Import ZArith Bool String List.
From Verif Require Import Num Numpy PyVal LinalgModel StateModel BaseModel Estimators.
Import ListNotations.
Local Open Scope string_scope.

(** A registered class, together with its constructor's [diff] argument ([rg_with_diff P b] is the
    parameters [P] with [diff] set to [b]); every registered class takes one. *)
(** an entry of precise/registry.py:30-48 *)
Record Registered (N : Num) := mkReg {
  rg_class : EstClass N;
  rg_with_diff : c_P rg_class -> bool -> c_P rg_class;
}.
Arguments mkReg {N}. Arguments rg_class {N}. Arguments rg_with_diff {N}.

Section Registry.
  Context {N : Num} (L : LinAlg N) (fuel : nat).

  (** constructor arguments of the rate-only classes, e.g. precise/ewa.py:23-26 *)
  Definition ewa_with (p : EwaP (N := N)) (b : bool) := mkEwaP (ewa_r p) b.
  (** constructor arguments of the block classes, e.g. precise/block_covariance.py:34-38 *)
  Definition blk_with (p : BlkP (N := N)) (b : bool) := mkBlkP (blk_r p) (blk_n_blocks p) b.

  (** precise/registry.py:30-48  [_REGISTRY] *)
  Definition registry : list (Registered N) :=
    [ mkReg Empirical (fun _ b => mkEmpP b);
      mkReg Diagonal ewa_with;
      mkReg (Block L) blk_with;
      mkReg Ewa ewa_with;
      mkReg (Adaptive L) (fun p b => mkAdaP (ada_r p) (ada_max_r p) b);
      mkReg LedoitWolf ewa_with;
      mkReg OAS ewa_with;
      mkReg Shrunk (fun p b => mkShrP (shr_r p) (shr_delta p) (shr_target p) b);
      mkReg (Schur L) (fun p b => mkSchP (sch_r p) (sch_n_blocks p) (sch_gamma p) (sch_interp p) b);
      mkReg (SchurCond L) blk_with;
      mkReg (SchurLW L) blk_with;
      mkReg (PartialMoments L fuel) ewa_with;
      mkReg (Huber L) (fun p b => mkHubP (hub_r p) (hub_c p) b);
      mkReg (Tyler L) ewa_with;
      mkReg (Geodesic L) ewa_with;
      mkReg DCC (fun p b => mkDccP (dcc_r p) (dcc_vol_r p) b);
      mkReg Factor (fun p b => mkFacP (fac_k p) (fac_r p) b) ].

  (** precise/registry.py:51-53 *)
  Definition all_estimators : list (Registered N) := registry.
  (** precise/registry.py:56-57 *)
  Definition estimator_names : list string := map (fun r => c_name (rg_class r)) registry.
  (** precise/registry.py:60-65 *)
  Fixpoint lookup (l : list (Registered N)) (name : string) : res (Registered N) :=
    match l with
    | [] => Err KeyError
    | r :: l' => if String.eqb (c_name (rg_class r)) name then Ok r else lookup l' name
    end.
  (** precise/registry.py:60-65  [estimator_from_name] *)
  Definition estimator_from_name (name : string) : res (Registered N) := lookup registry name.
End Registry.

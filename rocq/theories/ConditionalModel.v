(** * Model of precise/conditional.py

    The class is not in the registry.  Python's [vol] argument is one of: a positional estimator instance, a
    [from_skater] factory, anything else (TypeError when the first row arrives); each is a [VolModel].
    The constructor's defaults (vol = corr = EwaCovariance()) are left to the caller of the model. *)
From Coq Require Import ZArith Bool String List.
From Verif Require Import Num Numpy PyVal LinalgModel BaseModel.
Import ListNotations.

(** What [ConditionalCovariance] uses of a volatility model: construction, [.mean], [.variance], [.push(y)]. *)
(** the interface used at precise/conditional.py:125-152 *)
Record VolModel (N : Num) := mkVol {
  vm_St : Type;
  vm_make : res vm_St;                       (* self._make_vol() *)
  vm_mean : vm_St -> res N;
  vm_var : vm_St -> res N;
  vm_push : vm_St -> N -> vm_St * res unit;
}.
Arguments mkVol {N}. Arguments vm_St {N}. Arguments vm_make {N}. Arguments vm_mean {N}. Arguments vm_var {N}. Arguments vm_push {N}.

Section Vol.
  Context {N : Num}.
  (** precise/conditional.py:35-50  [_PreciseVar] around a clone of the template *)
  Definition pv_mean {C : EstClass N} (e : inst C) : res N :=
    n <- n_samples_ e ;;
    if Nat.ltb 0 n then l <- location_ e ;; match l with [] => Err IndexError | a :: _ => Ok a end else Ok n0.
  (** precise/conditional.py:48-50  [_PreciseVar.variance] *)
  Definition pv_var {C : EstClass N} (e : inst C) : res N :=
    n <- n_samples_ e ;;
    if Nat.ltb 0 n then c <- covariance_ e ;; match c with (a :: _) :: _ => Ok a | _ => Err IndexError end else Ok n1.
  (** precise/conditional.py:41-42  [_PreciseVar.push] *)
  Definition pv_push {C : EstClass N} (e : inst C) (y : N) : inst C * res unit := partial_fit e (In1 [y]).
  (** precise/conditional.py:125-128: the template is cloned for every series *)
  Definition vol_of_estimator {C : EstClass N} (template : inst C) : VolModel N :=
    mkVol (inst C) (Ok (clone template)) pv_mean pv_var pv_push.

  (** A skater: [f(y, state) -> (dists, state)]; a forecast distribution is its (mean, std).  The state before the
      first call is None. *)
  (** the argument of precise/conditional.py:91-106  [from_skater] *)
  Record Skater := mkSkater { sk_St : Type; sk_none : sk_St; sk_f : N -> sk_St -> res (list (N * N) * sk_St) }.
  (** precise/conditional.py:53-78  [_SkaterVar] (_state, _mean, _var); [_state] is assigned before [dists[0]] is read.
      Simplification: [std ** 2] does not raise OverflowError. *)
  Definition sv_push (k : Skater) (s : sk_St k * N * N) (y : N) : (sk_St k * N * N) * res unit :=
    let '(st, m, v) := s in
    match sk_f k y st with
    | Err e => (s, Err e)
    | Ok ([], st') => ((st', m, v), Err IndexError)
    | Ok ((mean, std) :: _, st') => ((st', mean, nmul std std), Ok tt)
    end.
  (** precise/conditional.py:81-106 and 129-130  [_SkaterVarFactory], [from_skater] *)
  Definition from_skater (k : Skater) : VolModel N :=
    mkVol (sk_St k * N * N) (Ok (sk_none k, n0, n1)) (fun s => Ok (snd (fst s))) (fun s => Ok (snd s)) (sv_push k).
  (** precise/conditional.py:131  neither an estimator nor callable *)
  Definition vol_invalid : VolModel N := mkVol unit (Err TypeError) (fun _ => Ok n0) (fun _ => Ok n1) (fun s _ => (s, Ok tt)).
End Vol.
Arguments Skater N : clear implicits.

(** [_state] of a ConditionalCovariance *)
(** precise/conditional.py:140 *)
Record cstate (N : Num) := mkCs { cs_dim : nat; cs_n : nat; cs_mean : vec N; cs_var : vec N }.
Arguments mkCs {N}. Arguments cs_dim {N}. Arguments cs_n {N}. Arguments cs_mean {N}. Arguments cs_var {N}.
(** A ConditionalCovariance: the constructor arguments are the section variables of [Cond]; the fields are its mutable attributes *)
(** precise/conditional.py:118-123 *)
Record cond {N} (V : VolModel N) (C : EstClass N) := mkCond {
  cd_nfeat : option nat; cd_state : option (cstate N); cd_vols : option (list (vm_St V)); cd_corr : option (inst C) }.
Arguments mkCond {N V C}. Arguments cd_nfeat {N V C}. Arguments cd_state {N V C}. Arguments cd_vols {N V C}. Arguments cd_corr {N V C}.

Section Cond.
  Context {N : Num} (V : VolModel N) {C : EstClass N} (corr : inst C).
  Notation cond := (cond V C).

  (** precise/conditional.py:118-123 *)
  Definition cond_new : cond := mkCond None None None None.

  (** precise/conditional.py:145, 151, 158: the literal 1e-12 *)
  Definition vol_floor : N := nlit 1 12.
  (** precise/conditional.py:144, 150 *)
  Definition means (vs : list (vm_St V)) : res (vec N) := mapM (vm_mean V) vs.
  (** [max(vm.variance, 1e-12)] *)
  (** precise/conditional.py:145, 151 *)
  Definition variances (vs : list (vm_St V)) : res (vec N) := mapM (fun s => v <- vm_var V s ;; Ok (py_max v vol_floor)) vs.
  (** precise/conditional.py:148-149  [for i, vm in enumerate(models): vm.push(float(x[i]))] *)
  Fixpoint push_all (vs : list (vm_St V)) (x : vec N) : list (vm_St V) * res unit :=
    match vs, x with
    | [], _ => ([], Ok tt)
    | v :: vs', [] => (v :: vs', Err IndexError)
    | v :: vs', y :: x' =>
      match vm_push V v y with
      | (v1, Err e) => (v1 :: vs', Err e)
      | (v1, Ok _) => let '(r, o) := push_all vs' x' in (v1 :: r, o)
      end
    end.

  (** precise/conditional.py:135-140  the sub-models are created when the first row arrives *)
  Definition cond_start (c : cond) (x : vec N) : cond * res unit :=
    match cd_state c with
    | Some _ => (c, Ok tt)
    | None =>
      let d := length x in
      match mapM (fun _ => vm_make V) (seq 0 d) with
      | Err e => (mkCond (Some d) None (cd_vols c) (cd_corr c), Err e)
      | Ok vs => (mkCond (Some d) (Some (mkCs d 0 (vzeros d) (vones d))) (Some vs) (Some (clone corr)), Ok tt)
      end
    end.
  (** precise/conditional.py:141-152  the rest of the loop body *)
  Definition cond_step (c : cond) (x : vec N) : cond * res unit :=
    match cd_state c, cd_vols c, cd_corr c with
    | Some s, Some vs, Some cm =>
      match (m <- means vs ;; v <- variances vs ;; e <- vsub x m ;; vdiv e (map nsqrt v)) with
      | Err e => (c, Err e)
      | Ok eps =>
        match partial_fit cm (In1 eps) with
        | (cm', Err e) => (mkCond (cd_nfeat c) (Some s) (Some vs) (Some cm'), Err e)
        | (cm', Ok _) =>
          match push_all vs x with
          | (vs', Err e) => (mkCond (cd_nfeat c) (Some s) (Some vs') (Some cm'), Err e)
          | (vs', Ok _) =>
            match means vs' with
            | Err e => (mkCond (cd_nfeat c) (Some s) (Some vs') (Some cm'), Err e)
            | Ok mean =>
              match variances vs' with
              | Err e => (mkCond (cd_nfeat c) (Some (mkCs (cs_dim s) (cs_n s) mean (cs_var s))) (Some vs') (Some cm'), Err e)
              | Ok var => (mkCond (cd_nfeat c) (Some (mkCs (cs_dim s) (S (cs_n s)) mean var)) (Some vs') (Some cm'), Ok tt)
              end
            end
          end
        end
      end
    | _, _, _ => (c, Err AssertionError)
    end.
  (** precise/conditional.py:135-152  one iteration of the loop *)
  Definition cond_row (c : cond) (x : vec N) : cond * res unit :=
    match cond_start c x with (c1, Err e) => (c1, Err e) | (c1, Ok _) => cond_step c1 x end.
  (** precise/conditional.py:134-152  the loop *)
  Fixpoint cond_rows (c : cond) (rows : list (vec N)) : cond * res unit :=
    match rows with
    | [] => (c, Ok tt)
    | x :: rest => match cond_row c x with (c', Ok _) => cond_rows c' rest | (c', Err e) => (c', Err e) end
    end.
  (** precise/conditional.py:133-153  [partial_fit] *)
  Definition cond_partial_fit (c : cond) (X : input N) : cond * res unit :=
    match as_rows X with Err e => (c, Err e) | Ok rows => cond_rows c rows end.
  (** precise/base.py:65-72  [fit], inherited *)
  Definition cond_fit (c : cond) (X : input N) : cond * res unit :=
    let c' := mkCond (cd_nfeat c) None (cd_vols c) (cd_corr c) in
    match X with In2 rows => cond_partial_fit c' (In2 rows) | _ => (c', Err ValueError) end.

  (** precise/base.py:74-94 with precise/conditional.py:155-159 *)
  Definition cond_fitted (c : cond) : res (cstate N) :=
    match cd_state c with Some s => if Nat.ltb (cs_n s) 1 then Err NotFittedError else Ok s | None => Err NotFittedError end.
  (** precise/base.py:83-85, inherited *)
  Definition cond_n_samples (c : cond) : nat := match cd_state c with Some s => cs_n s | None => 0 end.
  (** precise/base.py:87-89, inherited *)
  Definition cond_location (c : cond) : res (vec N) := s <- cond_fitted c ;; Ok (cs_mean s).
  (** precise/base.py:91-94 with precise/conditional.py:155-159 *)
  Definition cond_covariance (c : cond) : res (mat N) :=
    s <- cond_fitted c ;;
    cm <- (match cd_corr c with Some cm => Ok cm | None => Err AssertionError end) ;;
    R <- correlation_ cm ;;
    let d := map (fun v => nsqrt (np_max v vol_floor)) (cs_var s) in
    H <- mmul R (outer d d) ;;
    to_symmetric H.
  (** precise/conditional.py:163-171 *)
  Definition cond_get_state (c : cond) : res (option (jdict N)) := Err NotImplementedError.
  (** precise/conditional.py:163-171 *)
  Definition cond_set_state (c : cond) (j : option (jdict N)) : res cond := Err NotImplementedError.
End Cond.

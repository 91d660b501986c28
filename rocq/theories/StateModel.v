(** * Model of precise/_state.py *)
From Coq Require Import ZArith Bool String List.
From Verif Require Import Num Numpy PyVal.
Import ListNotations.
Local Open Scope string_scope.

Section StateModel.
  Context {N : Num}.
  Notation vec := (vec N).
  Notation mat := (mat N).
  Notation dict := (dict N).

  (** precise/_state.py:22-29  [emp_init] *)
  Definition emp_init (n_dim : nat) : dict :=
    [("n_dim", VInt n_dim); ("n_samples", VInt 0);
     ("mean", VArr (A1 (vzeros n_dim))); ("cov", VArr (A2 (mzeros n_dim n_dim)))].

  (** precise/_state.py:32-43  [emp_update] (one Welford step, population convention) *)
  Definition emp_update (s : dict) (x : vec) : res dict :=
    ns <- getI "n_samples" s ;;
    s_mean <- getV "mean" s ;;
    s_cov <- getM "cov" s ;;
    n_dim <- getI "n_dim" s ;;
    let count := S ns in
    delta_prev <- vsub x s_mean ;;
    mean <- vadd s_mean (vdivs delta_prev (nofn count)) ;;
    xm <- vsub x mean ;;
    let weighted_delta := vdivs xm (nofn count) in
    cov <- madd (mmap (fun c => ndiv (nmul c (nofn (count - 1))) (nofn count)) s_cov)
                (outer delta_prev weighted_delta) ;;
    Ok [("n_dim", VInt n_dim); ("n_samples", VInt count);
        ("mean", VArr (A1 mean)); ("cov", VArr (A2 cov))].

  (** precise/_state.py:46-52  [ewa_burn_n]: int(min(250, max(5, math.ceil(1.0 / r)))) *)
  Definition ewa_burn_n (r : N) : res nat :=
    q <- py_div n1 r ;;
    c <- nceil q ;;
    Ok (Z.to_nat (Z.min 250 (Z.max 5 c))).

  (** precise/_state.py:55-59  [ewa_init] *)
  Definition ewa_init (n_dim : nat) (r : N) : res dict :=
    n_burn <- ewa_burn_n r ;;
    Ok (emp_init n_dim ++ [("r", VNum r); ("n_burn", VInt n_burn)])%list.

  (** precise/_state.py:62-84  [ewa_update] *)
  Definition ewa_update (s : dict) (x : vec) : res dict :=
    ns <- getI "n_samples" s ;;
    n_burn <- getI "n_burn" s ;;
    r <- getN "r" s ;;
    if Nat.ltb ns n_burn then
      out <- emp_update s x ;;
      Ok (out ++ [("r", VNum r); ("n_burn", VInt n_burn)])%list
    else
      s_mean <- getV "mean" s ;;
      s_cov <- getM "cov" s ;;
      n_dim <- getI "n_dim" s ;;
      delta <- vsub x s_mean ;;
      mean <- vadd (vscale (nsub n1 r) s_mean) (vscale r x) ;;
      cov <- madd (mscale (nsub n1 r) s_cov) (mscale r (outer delta delta)) ;;
      Ok [("n_dim", VInt n_dim); ("n_samples", VInt (S ns));
          ("mean", VArr (A1 mean)); ("cov", VArr (A2 cov));
          ("r", VNum r); ("n_burn", VInt n_burn)].
End StateModel.

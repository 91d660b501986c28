(** * Model of research/schur_spiked.py and of the spiked models of research/schur_godambe.py

    Not modelled: the random draws (the orthogonal matrix and the noise matrix are arguments), the Monte-Carlo estimates and the
    printing. *)
From Coq Require Import ZArith List Bool.
From Verif Require Import Num Numpy ResearchModel.
Import ListNotations.

Section Spiked.
  Context {N : Num} (L : LinAlg N).
  Notation vec := (vec N).
  Notation mat := (mat N).

  (** research/schur_godambe.py:93-98  [_spiked], given Q; [np.full] of a negative length raises *)
  Definition spiked (Q : mat) (n_spikes : nat) (spike bulk : N) : res (mat * vec) :=
    let p := nrows Q in
    if p <? n_spikes then Err ValueError else
    let evals := repeat spike n_spikes ++ repeat bulk (p - n_spikes) in
    Q' <- mapM (fun row => vmul row evals) Q ;;
    Sig <- matmul Q' (transpose Q) ;;
    Sig <- half_sym Sig ;;
    Ok (Sig, evals).

  (** research/schur_godambe.py:101-112  [_noise_subspace_pair], given Q and the noise matrix G0 *)
  Definition noise_subspace_pair (Q G0 : mat) (eps_a eps_b : N) : res (mat * mat * mat) :=
    '(Sig_t, _) <- spiked Q 3 (nofZ 12) (nlit 4 1) ;;
    let V := map (skipn 3) Q in
    G <- half_sym G0 ;;
    VG <- matmul V G ;;
    P0 <- matmul VG (transpose V) ;;
    let P := mdivs P0 (mnorm P0) in
    A <- madd Sig_t (mscale eps_a P) ;;
    B <- madd Sig_t (mscale eps_b P) ;;
    Ok (Sig_t, A, B).

  (** research/schur_spiked.py:29-35  [_estimates]: one of the two estimates *)
  Definition shrink_estimate (S : mat) (alpha : N) : res mat :=
    let p := nrows S in
    let target := mscale (ndiv (mtrace S) (nofn p)) (meye p) in
    A <- madd (mscale (nsub n1 alpha) S) (mscale alpha target) ;;
    half_sym A.
  (** research/schur_spiked.py:29-35  [_estimates] *)
  Definition estimates (S : mat) (alpha_a alpha_b : N) : res (mat * mat) :=
    A <- shrink_estimate S alpha_a ;; B <- shrink_estimate S alpha_b ;; Ok (A, B).
  (** research/schur_spiked.py:38-45  [_score_gap]; [_is_spd] with its default tolerance 1e-9.  The second test is not evaluated when
      the first one fails. *)
  Definition score_gap (S : mat) (sizes : list nat) (gamma : N) (Sig_t : mat) (alpha_a alpha_b : N) : res N :=
    '(A, B) <- estimates S alpha_a alpha_b ;;
    oka <- is_spd L A (nlit 1 9) ;;
    ok <- (if oka : bool then is_spd L B (nlit 1 9) else Ok false) ;;
    if negb ok then Ok nnan else
    '(WA, LdA) <- schur_operator L A sizes gamma ;;
    '(WB, LdB) <- schur_operator L B sizes gamma ;;
    D <- msub WA WB ;;
    M <- matmul D Sig_t ;;
    Ok (nmul mhalf (nadd (nsub LdA LdB) (mtrace M))).

  (** [E = np.zeros((p, p)); E[i, j] = E[j, i] = 1.0] *)
  (** research/schur_spiked.py:67-68 *)
  Definition unit_pair (p i j : nat) : mat :=
    tab2 p p (fun a b => if ((a =? i) && (b =? j)) || ((a =? j) && (b =? i)) then n1 else n0).
  (** research/schur_spiked.py:62-72  the loops of [_grad_score_gap], for any function [gap] of S *)
  Definition gradient (gap : mat -> res N) (S : mat) (h : N) : res mat :=
    let p := nrows S in
    rows <- mapM (fun i => mapM (fun j =>
        let E := unit_pair p i j in
        Sp <- madd S (mscale h E) ;; dp <- gap Sp ;;
        Sm <- msub S (mscale h E) ;; dm <- gap Sm ;;
        Ok (ndiv (nsub dp dm) (nmul (nofZ 2) h))) (seq i (p - i))) (seq 0 p) ;;
    Ok (tab2 p p (fun i j => vget (nth (Nat.min i j) rows []) (Nat.max i j - Nat.min i j))).
  (** research/schur_spiked.py:61-72  [_grad_score_gap] with its default step *)
  Definition grad_score_gap (S : mat) (sizes : list nat) (gamma : N) (Sig_t : mat) (alpha_a alpha_b : N) : res mat :=
    gradient (fun X => score_gap X sizes gamma Sig_t alpha_a alpha_b) S (nlit 1 5).
  (** research/schur_spiked.py:75-79  [_cov_quadform]; [n] is a Python int *)
  Definition cov_quadform (G Sig : mat) (n : Z) : res N :=
    M <- matmul G Sig ;;
    c <- py_div (nofZ 2) (nofZ n) ;;
    MM <- matmul M M ;;
    Ok (nmul c (mtrace MM)).
  (** research/schur_spiked.py:82-87  [snr_delta] *)
  Definition snr_delta (n : Z) (sizes : list nat) (gamma alpha_a alpha_b : N) (Sig_t : mat) : res (N * N * N) :=
    mean <- score_gap Sig_t sizes gamma Sig_t alpha_a alpha_b ;;
    G <- grad_score_gap Sig_t sizes gamma Sig_t alpha_a alpha_b ;;
    var <- cov_quadform G Sig_t n ;;
    Ok (mean, nsqrt var, if nltb n0 var then ndiv mean (nsqrt var) else plus_inf).
End Spiked.

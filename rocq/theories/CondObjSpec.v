(** * Vocabulary of C100 (specification only): histories of calls on a ConditionalCovariance *)
From Coq Require Import ZArith Bool String List.
From Verif Require Import Num Numpy PyVal BaseModel Spec ConditionalModel CondObjModel.
Import ListNotations.

Section S.
  Context {N : Num}.
  (** an estimator that was constructed and then went through some history of calls on observations of one length *)
  Definition reachable {C : EstClass N} (t : inst C) : Prop :=
    exists P q cs, 1 <= q /\ history_of_length q cs /\ t = fst (run (new P) cs).

  (** the public mutating calls on a ConditionalCovariance *)
  Inductive ccall (Cv C : EstClass N) :=
  | CPartialFit (X : input N) | CFit (X : input N) | CSetVol (t : inst Cv) | CSetCorr (t : inst C).
  Definition do_ccall {Cv C} (o : cobj Cv C) (c : ccall Cv C) : cobj Cv C * res unit :=
    match c with
    | CPartialFit _ _ X => co_partial_fit o X
    | CFit _ _ X => co_fit o X
    | CSetVol _ _ t => (co_set_vol o t, Ok tt)
    | CSetCorr _ _ t => (co_set_corr o t, Ok tt)
    end.
  Fixpoint crun {Cv C} (o : cobj Cv C) (cs : list (ccall Cv C)) : cobj Cv C * list (res unit) :=
    match cs with
    | [] => (o, [])
    | c :: cs' => let '(o', r) := do_ccall o c in let '(o'', rs) := crun o' cs' in (o'', r :: rs)
    end.
  (** every observation of the history has length [p]; every template it sets is reachable *)
  Definition chistory {Cv C} (p : nat) (cs : list (ccall Cv C)) : Prop :=
    Forall (fun c => match c with
                     | CPartialFit _ _ X | CFit _ _ X => match as_rows X with Ok rows => rows_of_length p rows | Err _ => True end
                     | CSetVol _ _ t => reachable t
                     | CSetCorr _ _ t => reachable t end) cs.

  (** everything the public interface lets one read *)
  Definition same_cond (L : LinAlg N) {V V' : VolModel N} {C : EstClass N} (c : cond V C) (c' : cond V' C) : Prop :=
    cond_n_samples V c = cond_n_samples V' c' /\ cd_nfeat c = cd_nfeat c' /\
    cond_location V c = cond_location V' c' /\ cond_covariance V c = cond_covariance V' c' /\
    cond_correlation c = cond_correlation c' /\ cond_precision L c = cond_precision L c' /\
    (forall X, cond_mahalanobis L c X = cond_mahalanobis L c' X) /\ (forall X, cond_score L c X = cond_score L c' X).
  (** ... now and after every later history of calls *)
  Definition cindistinguishable (L : LinAlg N) {Cv C} (o o' : cobj Cv C) : Prop :=
    forall cs, snd (crun o cs) = snd (crun o' cs) /\ same_cond L (co_cond (fst (crun o cs))) (co_cond (fst (crun o' cs))).

  (** histories of [partial_fit] and [fit] calls, for any kind of volatility model *)
  Inductive vcall := VPartialFit (X : input N) | VFit (X : input N).
  Definition do_vcall (V : VolModel N) {C : EstClass N} (corr : inst C) (c : cond V C) (m : vcall) : cond V C * res unit :=
    match m with VPartialFit X => cond_partial_fit V corr c X | VFit X => cond_fit V corr c X end.
  Fixpoint vrun (V : VolModel N) {C : EstClass N} (corr : inst C) (c : cond V C) (ms : list vcall) : cond V C * list (res unit) :=
    match ms with
    | [] => (c, [])
    | m :: ms' => let '(c', r) := do_vcall V corr c m in let '(c'', rs) := vrun V corr c' ms' in (c'', r :: rs)
    end.
  Definition vhistory (p : nat) (ms : list vcall) : Prop :=
    Forall (fun m => match m with VPartialFit X | VFit X => match as_rows X with Ok rows => rows_of_length p rows | Err _ => True end end) ms.
  (** A skater whose states survive pickling by [pk]: the copy is one the skater cannot tell from the original -- same
      forecasts and same failures now, and again with the states that follow. *)
  Definition skater_pickles (k : Skater N) (pk : sk_St k -> res (sk_St k)) : Prop :=
    exists same : sk_St k -> sk_St k -> Prop,
      (forall s, same s s) /\ (forall s, exists s', pk s = Ok s' /\ same s s') /\
      (forall s s' y, same s s' ->
         match sk_f k y s, sk_f k y s' with
         | Ok (ds, t), Ok (ds', t') => ds = ds' /\ same t t'
         | Err e, Err e' => e = e'
         | _, _ => False end).
End S.

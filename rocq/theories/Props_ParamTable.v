(** * C82: the documented defaults.  C93: a checkpoint whose sample count is zero *)
From Coq Require Import ZArith Bool String List Lia.
From Verif Require Import Num Numpy PyVal LinalgModel StateModel BaseModel Estimators RegistryModel ParamsModel Props_Params.
Import ListNotations.
Local Open Scope string_scope.

(** ** The constructors' documented signatures *)
Definition documented (N : Num) : list (string * kwargs N) :=
  let r := ("r", PvNum (nlit 5 2)) in (* 0.05 *)
  let diff := ("diff", PvBool false) in
  let n_blocks := ("n_blocks", PvInt 4) in
  [ ("EmpiricalCovariance", [diff]);
    ("DiagonalCovariance", [r; diff]);
    ("BlockCovariance", [r; n_blocks; diff]);
    ("EwaCovariance", [r; diff]);
    ("AdaptiveEwaCovariance", [r; ("max_r", PvNum (nlit 5 1)); diff]);
    ("LedoitWolfCovariance", [r; diff]);
    ("OASCovariance", [r; diff]);
    ("ShrunkCovariance", [r; ("delta", PvNum (nlit 1 1)); ("target", PvStr "constant_correlation"); diff]);
    ("SchurCovariance", [r; n_blocks; ("gamma", PvNum (nlit 5 1)); ("interpolation", PvStr "linear"); diff]);
    ("SchurConditionalCovariance", [r; n_blocks; diff]);
    ("SchurLedoitWolfCovariance", [r; n_blocks; diff]);
    ("PartialMomentsCovariance", [r; diff]);
    ("HuberCovariance", [r; ("c", PvNum (nlit 25 1)); diff]);
    ("TylerCovariance", [r; diff]);
    ("GeodesicEwaCovariance", [r; diff]);
    ("DCCCovariance", [r; ("vol_r", PvNone); diff]);
    ("FactorCovariance", [("k", PvInt 2); r; diff]) ].

(** [Class().get_params()] is the documented dictionary, for each of the seventeen classes. *)
Theorem C82_default_table (N : Num) (L : LinAlg N) fuel :
  Forall2 (fun k row => c_name (sg_class k) = fst row /\ exists o, construct k [] = Ok o /\ get_params k o = Ok (snd row) /\ ob_state o = None)
    (signatures L fuel) (documented N).
Proof. unfold signatures, documented. repeat (apply Forall2_cons; [split; [reflexivity|eexists; split; [reflexivity|split; reflexivity]]|]). apply Forall2_nil. Qed.

(** ** A loaded count of zero *)
Lemma jdget_set {N : Num} (j : jdict N) : forall s nf, dict_set j = Ok (s, nf) -> dget "n_samples" j = Some (JInt 0) -> dict_nsamples s = Ok 0%nat.
Proof.
  intros s nf E H. unfold dict_set in E.
  match type of E with bind (mapM ?f j) _ = _ => assert (G : forall d r, mapM f d = Ok r -> dget "n_samples" d = Some (JInt 0) -> dget "n_samples" r = Some (VInt 0)) end.
  { induction d as [|[q v] d IH]; intros r Er Hd; [discriminate|]. cbn [mapM] in Er. cbn [dget] in Hd.
    destruct (String.eqb_spec "n_samples" q) as [Eq|Nq].
    - injection Hd as ->. cbn [snd fst bind] in Er. destruct (mapM _ d) in Er; [|discriminate]. cbn [bind] in Er. injection Er as <-. subst q. reflexivity.
    - cbn [snd fst] in Er. destruct v as [n|x|l]; cbn [bind] in Er.
      3: destruct (np_array l) as [a|]; cbn [bind] in Er; [|discriminate].
      all: destruct (mapM _ d) as [r'|] eqn:Ed in Er; cbn [bind] in Er; [|discriminate]; injection Er as <-; cbn [dget]; destruct (String.eqb_spec "n_samples" q); [contradiction|]; apply (IH r'); auto. }
  match type of E with bind (mapM ?f j) _ = _ => destruct (mapM f j) as [r|] eqn:Er end; cbn [bind] in E; [|discriminate].
  specialize (G j r Er H). destruct (dget "n_dim" r) as [[]|] eqn:En; try discriminate; injection E as <- <-; unfold dict_nsamples, getI; now rewrite G.
Qed.
(** Whatever else a checkpoint holds, loading one with a sample count of zero leaves an unfitted estimator: the count is 0 and every read
    raises NotFittedError. *)
Theorem C93_zero_count (N : Num) (L : LinAlg N) fuel (k : Signed N) (o o1 : inst (sg_class k)) (j : jdict N) :
  In k (signatures L fuel) -> set_state o (Some j) = Ok o1 -> dget "n_samples" j = Some (JInt 0) ->
  n_samples_ o1 = Ok 0%nat /\ location_ o1 = Err NotFittedError /\ covariance_ o1 = Err NotFittedError /\ correlation_ o1 = Err NotFittedError /\
  precision_ L o1 = Err NotFittedError /\
  (forall X rows, as_rows X = Ok rows -> mahalanobis L o1 X = Err NotFittedError /\ score L o1 X = Err NotFittedError).
Proof.
  intros Hk E H.
  assert (F : exists s, i_state o1 = Some s /\ c_nsamples (sg_class k) s = Ok 0%nat).
  { unfold set_state in E. destruct (c_set (sg_class k) j) as [[s nf]|] eqn:Es; cbn [bind] in E; [|discriminate]. injection E as <-. exists s. split; [reflexivity|].
    clear - Hk Es H. unfold signatures in Hk.
    repeat (destruct Hk as [<-|Hk]; [cbn [sg_class c_set c_nsamples dict_class Empirical Diagonal Ewa Adaptive LedoitWolf OAS Shrunk Schur SchurCond SchurLW PartialMoments Huber Tyler Geodesic DCC Factor] in *; try (eapply jdget_set; eassumption)|]); [|destruct Hk].
    cbn [c_set Block c_nsamples c_St sg_class] in *. unfold blk_set in Es. unfold jgetI at 1 in Es. rewrite H in Es. cbn [bind] in Es.
    repeat match type of Es with bind ?m _ = Ok _ => destruct m; cbn [bind] in Es; [|discriminate] end. injection Es as <- <-. reflexivity. }
  destruct F as (s & Fs & Fn).
  assert (FS : fitted_state o1 = Err NotFittedError) by (unfold fitted_state; rewrite Fs, Fn; reflexivity).
  assert (FC : covariance_ o1 = Err NotFittedError) by (unfold covariance_; now rewrite FS).
  assert (FP : precision_ L o1 = Err NotFittedError) by (unfold precision_; rewrite FC, FS; destruct (c_prec _); reflexivity).
  split; [unfold n_samples_; now rewrite Fs|]. split; [unfold location_; now rewrite FS|]. split; [exact FC|]. split; [unfold correlation_; now rewrite FC|]. split; [exact FP|].
  intros X rows EX. unfold mahalanobis, score. rewrite EX. cbn [bind]. rewrite FP. split; reflexivity.
Qed.
Example C93_zero_count_witness (N : Num) (L : LinAlg N) : exists o1, set_state (new (C := Ewa (N := N)) (mkEwaP (nlit 5 2 : N) false)) (Some [("n_dim", JInt 2); ("n_samples", JInt 0); ("mean", JList [JNum (n1 : N); JNum n1])]) = Ok o1.
Proof. eexists. reflexivity. Qed.

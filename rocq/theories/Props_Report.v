(** * C95, C96, C97: what the reports say, and degenerate inputs *)
From Coq Require Import Reals ZArith Bool String List Lia Lra Arith Sorted Permutation.
From Verif Require Import Num Numpy PyVal LinalgModel StateModel BaseModel Estimators RegistryModel ParamsModel AssessModel RecommendModel
  Spec ListLemmas OosModel OosSpec MetricModel Props_Params Props_Recommend Props_Oos Props_OosReal Props_Ranks.
Import ListNotations.
Local Open Scope string_scope.
Local Open Scope list_scope.

Lemma xleb_xle a b : xleb a b = true <-> xle a b.
Proof.
  destruct a, b; simpl; split; intros; auto; try discriminate; try contradiction; unfold Rleb in *; destruct Rle_dec; auto; try lra; try discriminate.
Qed.
Lemma vols_good (l : list (string * xreal)) : no_nan l -> good (N := NumX) (fun e : string * NumX => snd e) l.
Proof.
  intros H. assert (H' : forall e, In e l -> snd e <> NaN) by (intros [nm s] He; exact (H nm s He)).
  split.
  - intros x y Hx Hy. destruct (xle_total (snd x) (snd y)) as [Q|Q]; auto; [left|right]; now apply xleb_xle.
  - intros x y z Hx Hy Hz E1 E2. apply xleb_xle in E1, E2. apply xleb_xle. eapply xle_trans; eassumption.
Qed.
Lemma filter_none {A} (P : A -> bool) l : length (filter P l) = 0%nat <-> forall x, In x l -> P x = false.
Proof.
  induction l as [|a l IH]; simpl; [split; [intros _ x []|reflexivity]|]. destruct (P a) eqn:E; simpl; split.
  - discriminate.
  - intros H. rewrite (H a) in E by now left. discriminate.
  - intros H x [<-|Hx]; [exact E|]. now apply IH.
  - intros H. apply IH. intros x Hx. apply H. now right.
Qed.
Lemma filter_length_le {A} (P : A -> bool) l : (length (filter P l) <= length l)%nat.
Proof. induction l as [|a l IH]; simpl; [lia|]. destruct (P a); simpl; lia. Qed.
Lemma filter_all {A} (P : A -> bool) l : (forall x, In x l -> P x = true) -> length (filter P l) = length l.
Proof. induction l as [|a l IH]; simpl; intros H; [reflexivity|]. rewrite H by now left. simpl. f_equal. apply IH. intros x Hx. apply H. now right. Qed.
Lemma filter_le {A} (P : A -> bool) l x : In x l -> P x = false -> (S (length (filter P l)) <= length l)%nat.
Proof.
  induction l as [|a l IH]; simpl; [contradiction|]. intros [->|H] E.
  - rewrite E. pose proof (filter_length_le P l). lia.
  - specialize (IH H E). destruct (P a); simpl; lia.
Qed.

(** The report lists every estimator once, from the least volatility to the greatest, and names the least as the best fixed one.
    The recommender's rank is one plus the number of fixed estimators with a strictly smaller volatility: it is 1 exactly when the
    recommender is at least as good as the best fixed estimator, and never below 1; it can be one more than the number of
    estimators only if the recommender is worse than all of them, which a recommender that never changes its mind is not. *)
Theorem C96_report L fuel model (R : mat NumX) a b s o : rolling_oos L fuel model R a b s = Ok o ->
  (forall nm v, In (nm, v) (o_fixed o) -> v <> NaN) ->
  exists nm v, report_best o = Ok (nm, v) /\ In (nm, v) (o_fixed o) /\ (forall nm' v', In (nm', v') (o_fixed o) -> xle v v') /\
    Permutation (report_ranked o) (o_fixed o) /\ StronglySorted (fun e e' : string * xreal => xle (snd e) (snd e')) (report_ranked o) /\
    report_rank o = S (length (filter (fun e => beats (o_rec o) (snd e)) (o_fixed o))) /\
    (report_rank o = 1%nat <-> xle (o_rec o) v) /\
    (report_rank o <= S (length (estimator_names L fuel)))%nat /\
    (report_rank o = S (length (estimator_names L fuel)) <-> forall nm' v', In (nm', v') (o_fixed o) -> ~ xle (o_rec o) v') /\
    (forall nm', o_counts o = [(nm', windows (nrows R) a b s)] -> (report_rank o <= length (estimator_names L fuel))%nat).
Proof.
  intros E HN. pose proof (C96_oracle L fuel model R a b s o E HN) as (_ & _ & _ & HO).
  assert (Hr : o_rec o <> NaN) by (destruct (o_oracle o), (o_rec o); simpl in HO; congruence || contradiction).
  destruct (C96_fixed L fuel model R a b s o E) as [Hn _].
  assert (Hlen : length (o_fixed o) = length (estimator_names L fuel)) by (rewrite <- Hn; now rewrite map_length).
  pose proof (sorted_num_perm (N := NumX) (fun e : string * NumX => snd e) (o_fixed o)) as P.
  pose proof (sorted_num_sorted (N := NumX) (fun e : string * NumX => snd e) (o_fixed o) (vols_good _ HN)) as SS.
  assert (SS' : StronglySorted (fun e e' : string * xreal => xle (snd e) (snd e')) (report_ranked o)).
  { unfold report_ranked. revert SS. generalize (sorted_num (N := NumX) (fun e : string * NumX => snd e) (o_fixed o)). intros l SS.
    induction SS as [|x l SS IH F]; constructor; [exact IH|]. eapply Forall_impl; [|exact F]. intros y Hy. now apply xleb_xle. }
  assert (NE : report_ranked o <> []).
  { intros K. unfold report_ranked in K. rewrite K in P. apply Permutation_length in P. rewrite Hlen in P. discriminate P. }
  destruct (report_ranked o) as [|[nm v] l] eqn:ER; [contradiction|].
  assert (Hin : In (nm, v) (o_fixed o)) by (unfold report_ranked in ER; rewrite ER in P; apply (Permutation_in _ P); now left).
  assert (Hmin : forall nm' v', In (nm', v') (o_fixed o) -> xle v v').
  { intros nm' v' Hi. unfold report_ranked in ER. rewrite ER in P. apply (Permutation_in _ (Permutation_sym P)) in Hi. destruct Hi as [K|Hi].
    - injection K as <- <-. apply xle_refl. exact (HN nm v Hin).
    - inversion SS' as [|? ? _ F]; subst. rewrite Forall_forall in F. exact (F _ Hi). }
  exists nm, v. split; [unfold report_best; now rewrite ER|]. split; [exact Hin|]. split; [exact Hmin|]. split; [unfold report_ranked in ER; now rewrite ER in P|]. split; [exact SS'|].
  split; [reflexivity|]. split.
  { unfold report_rank. split.
    - intros K. injection K as K. pose proof (proj1 (filter_none _ _) K (nm, v) Hin) as K'. apply xltb_false; [exact (HN nm v Hin)|exact Hr|exact K'].
    - intros K. f_equal. apply filter_none. intros [nm' v'] Hi. cbn [snd]. destruct (nltb v' (o_rec o)) eqn:Q; [|reflexivity].
      apply xltb_iff in Q; [|exact (HN nm' v' Hi)|exact Hr]. exfalso. apply Q. apply (xle_trans _ v); [exact K|exact (Hmin nm' v' Hi)]. }
  split; [unfold report_rank; rewrite <- Hlen; apply le_n_S, filter_length_le|]. split.
  { unfold report_rank. rewrite <- Hlen. split.
    - intros K nm' v' Hi Q. injection K as K. assert (X : nltb v' (o_rec o) = false).
      { destruct (nltb v' (o_rec o)) eqn:Z; [|reflexivity]. apply xltb_iff in Z; [contradiction|exact (HN nm' v' Hi)|exact Hr]. }
      exact (Nat.nle_succ_diag_l _ (Nat.le_trans _ _ _ (filter_le (fun e : string * NumX => nltb (snd e) (o_rec o)) (o_fixed o) (nm', v') Hi X) (Nat.eq_le_incl _ _ (eq_sym K)))).
    - intros K. f_equal. apply filter_all. intros [nm' v'] Hi. cbn [snd]. apply xltb_iff; [exact (HN nm' v' Hi)|exact Hr|exact (K nm' v' Hi)]. }
  intros nm' HC. pose proof (C96_constant_pick L fuel model R a b s o nm' E HC) as Hi. rewrite <- Hlen.
  apply (filter_le (fun e : string * NumX => nltb (snd e) (o_rec o)) (o_fixed o) (nm', o_rec o) Hi). cbn [snd].
  destruct (nltb (o_rec o) (o_rec o)) eqn:Z; [|reflexivity]. apply xltb_iff in Z; auto. exfalso. apply Z. now apply xle_refl.
Qed.
(** With fewer rows than one window every volatility is NaN, and the report says the recommender ranks first. *)
Theorem C96_report_too_short L fuel model (R : mat NumX) a b s : (1 <= s)%nat -> (nrows R < a + b)%nat ->
  exists o, rolling_oos L fuel model R a b s = Ok o /\ report_rank o = 1%nat.
Proof.
  intros Hs HT. destruct (C96_too_short L fuel model R a b s Hs HT) as (o & E & _ & H & Hr & _). exists o. split; [exact E|].
  unfold report_rank. f_equal. apply filter_none. intros [nm v] Hi. rewrite Hr, (H nm v Hi). reflexivity.
Qed.

(** ** Nothing to choose from *)
Theorem C97_nothing_to_choose_from {N : Num} :
  best_fixed (N := N) [] = Err ValueError /\
  (forall primary cell, winner (N := N) [] primary cell = Err ValueError).
Proof. split; reflexivity. Qed.

(** ** A block size of zero raises, a negative one scores 0 whatever the estimate and the data *)
Theorem C95_unusual_block_sizes {N : Num} (L : LinAlg N) (cov X : mat N) (k : Z) :
  (k = 0%Z -> mp_block_pseudo_loglik L cov X k = Err ValueError) /\ ((k < 0)%Z -> mp_block_pseudo_loglik L cov X k = Ok n0).
Proof.
  unfold mp_block_pseudo_loglik. split.
  - intros ->. reflexivity.
  - intros H. destruct (Z.eqb_spec k 0); [lia|]. destruct (Z.ltb_spec k 0); [reflexivity|lia].
Qed.

(** * C101: training the recommender and the leave-one-out protocols (research/oos.py, research/train_recommender.py) *)
From Coq Require Import Reals ZArith Bool String List Lia Lra Arith Permutation.
From Verif Require Import Num Numpy PyVal LinalgModel StateModel BaseModel Estimators RegistryModel ParamsModel AssessModel RecommendModel
  Spec ListLemmas OosModel OosSpec TrainModel Props_Params Props_Recommend Props_Oos Props_OosReal Props_Ranks.
Import ListNotations.
Local Open Scope string_scope.
Local Open Scope list_scope.

Section Draws.
  Context {N : Num} {R : Rand N}.
  Lemma dbind_ok {A B} (m : D R A) (f : A -> D R B) g b g' : dbind R m f g = Ok (b, g') -> exists a g1, m g = Ok (a, g1) /\ f a g1 = Ok (b, g').
  Proof. unfold dbind. destruct (m g) as [[a g1]|e]; [eauto|discriminate]. Qed.
  Lemma dlift_ok {A} (r : res A) g a g' : dlift R r g = Ok (a, g') -> r = Ok a /\ g' = g.
  Proof. unfold dlift. destruct r; intros E; [injection E as -> ->; auto|discriminate]. Qed.
  Lemma dret_ok {A} (a b : A) g g' : dret R a g = Ok (b, g') -> b = a /\ g' = g.
  Proof. intros E; injection E as -> ->; auto. Qed.
  Lemma dbind_ext {A B} (m m' : D R A) (f f' : A -> D R B) g : m g = m' g -> (forall a g', m g = Ok (a, g') -> f a g' = f' a g') -> dbind R m f g = dbind R m' f' g.
  Proof. intros E H. unfold dbind. rewrite <- E. destruct (m g) as [[a g1]|e]; auto. Qed.
  Lemma dtimes_ext {A} n (m m' : D R A) g : (forall g, m g = m' g) -> dtimes R n m g = dtimes R n m' g.
  Proof.
    intros H. revert g. induction n as [|n IH]; intros g; [reflexivity|]. cbn [dtimes]. apply dbind_ext; [apply H|]. intros a g1 _.
    apply dbind_ext; [apply IH|]. reflexivity.
  Qed.
  Lemma dtimes_ok {A} n (m : D R A) g l g' : dtimes R n m g = Ok (l, g') -> length l = n /\ forall a, In a l -> exists g0 g1, m g0 = Ok (a, g1).
  Proof.
    revert g l g'. induction n as [|n IH]; intros g l g' E; cbn [dtimes] in E.
    - injection E as <- _. split; [reflexivity|intros a []].
    - apply dbind_ok in E as (a & g1 & E1 & E). apply dbind_ok in E as (l' & g2 & E2 & E). apply dret_ok in E as [-> _].
      destruct (IH _ _ _ E2) as [H1 H2]. split; [simpl; lia|]. intros b [<-|Hb]; eauto.
  Qed.
  Lemma dtimes_sub {A} n (m m' : D R A) g l g' : (forall g a g', m g = Ok (a, g') -> m' g = Ok (a, g')) -> dtimes R n m g = Ok (l, g') -> dtimes R n m' g = Ok (l, g').
  Proof.
    intros H. revert g l g'. induction n as [|n IH]; intros g l g' E; cbn [dtimes] in *; [exact E|].
    apply dbind_ok in E as (a & g1 & E1 & E). apply dbind_ok in E as (l' & g2 & E2 & E). unfold dbind. rewrite (H _ _ _ E1), (IH _ _ _ E2). exact E.
  Qed.
  Lemma dmap_ok {A B} (f : A -> D R B) l g bs g' : dmap R f l g = Ok (bs, g') -> Forall2 (fun a b => exists g0 g1, f a g0 = Ok (b, g1)) l bs.
  Proof.
    revert g bs. induction l as [|a l IH]; intros g bs E; cbn [dmap] in E; [injection E as <- _; constructor|].
    apply dbind_ok in E as (b & g1 & E1 & E). apply dbind_ok in E as (bs' & g2 & E2 & E). apply dret_ok in E as [-> ->]. constructor; eauto.
  Qed.
End Draws.

Section Protocols.
Context {N : Num} (L : LinAlg N) (fuel : nat) (model : bool) (R : Rand N).
Notation vec := (vec N).
Notation mat := (mat N).

Lemma pick_in names g nm g' : pick_name R names g = Ok (nm, g') -> In nm names.
Proof.
  unfold pick_name. destruct names as [|n0 names]; [discriminate|]. intros E. apply dbind_ok in E as (i & g1 & _ & E). apply dlift_ok in E as [E _].
  destruct (nth_error _ i) eqn:F; [|discriminate]. injection E as <-. eapply nth_error_In, F.
Qed.
Lemma others_in names held nm : In nm (others names held) <-> In nm names /\ nm <> held.
Proof. unfold others. rewrite filter_In, Bool.negb_true_iff, String.eqb_neq. tauto. Qed.

(** ** No leak *)
(** Two registries of families with the same names that differ in one family only. *)
Definition same_elsewhere (held : string) (ens ens' : list (string * family R)) : Prop :=
  map fst ens = map fst ens' /\ forall nm, nm <> held -> key ens nm = key ens' nm.

(** Training for a held-out family, and choosing the best fixed estimator for it, do not depend on that family: with another generator
    (or other tails) in its place the trained recommender, the chosen estimator, an exception if there is one, and the state of the
    random number generator afterwards are the same. *)
Theorem C101_training_never_sees_the_held_out_family sk_fit ens ens' held n_problems a g : same_elsewhere held ens ens' ->
  train_recommender L fuel R sk_fit ens (others (map fst ens) held) n_problems a g =
  train_recommender L fuel R sk_fit ens' (others (map fst ens') held) n_problems a g.
Proof.
  intros [Hn HK]. rewrite <- Hn. unfold train_recommender. apply dbind_ext; [|reflexivity]. apply dtimes_ext. intros g1.
  apply dbind_ext; [|reflexivity]. unfold problem. apply dbind_ext; [reflexivity|]. intros nm g2 E. apply pick_in, others_in in E as [_ E].
  now rewrite (HK nm E).
Qed.
Theorem C101_best_fixed_never_sees_the_held_out_family ens ens' held p n_train n_test trials a g : same_elsewhere held ens ens' ->
  best_fixed_draw L fuel model R ens (others (map fst ens) held) p n_train n_test trials a g =
  best_fixed_draw L fuel model R ens' (others (map fst ens') held) p n_train n_test trials a g.
Proof.
  intros [Hn HK]. rewrite <- Hn. unfold best_fixed_draw. apply dbind_ext; [|reflexivity]. apply dtimes_ext. intros g1.
  apply dbind_ext; [reflexivity|]. intros nm g2 E. apply pick_in, others_in in E as [_ E]. now rewrite (HK nm E).
Qed.
(** So the entry for a family is the evaluation, on that family alone, of a recommender and a fixed estimator made from the others. *)
Theorem C101_held_out_entry sk_fit ens p n_train n_test trials n_problems a held g r g' :
  family_out L fuel model R sk_fit ens p n_train n_test trials n_problems a held g = Ok (r, g') ->
  exists rec bf fam g1 g2,
    train_recommender L fuel R sk_fit ens (others (map fst ens) held) n_problems a g = Ok (rec, g1) /\
    best_fixed_draw L fuel model R ens (others (map fst ens) held) p n_train n_test trials a g1 = Ok (bf, g2) /\
    key ens held = Ok fam /\ evaluate L fuel R fam p n_train n_test trials a rec bf g2 = Ok (r, g').
Proof.
  unfold family_out. intros E. apply dbind_ok in E as (rec & g1 & E1 & E). apply dbind_ok in E as (bf & g2 & E2 & E).
  apply dbind_ok in E as (fam & g3 & E3 & E). apply dlift_ok in E3 as [E3 ->]. exists rec, bf, fam, g1, g2. auto.
Qed.

(** ** The training set *)
(** The label of an example is the name of a registered estimator. *)
Lemma label_registered sc y : label L fuel sc = Ok y -> In y (estimator_names L fuel).
Proof.
  unfold label. intros E. apply bind_ok in E as (i & _ & E). destruct (nth_error _ i) eqn:F; [|discriminate]. injection E as <-.
  rewrite <- names_eq. eapply nth_error_In, F.
Qed.
Lemma example_inv a pr f y : example L fuel a pr = Ok (f, y) -> train_features L (fst pr) = Ok f /\ In y (estimator_names L fuel).
Proof.
  unfold example. intros E. apply bind_ok in E as (sc & _ & E). apply bind_ok in E as (f' & E1 & E). apply bind_ok in E as (y' & E2 & E).
  injection E as <- <-. split; [exact E1|eapply label_registered, E2].
Qed.
(** A synthetic problem: training and test rows drawn from the same covariance, which one of the families generated, for p in
    {15, 25, 40, 60} variables and max(10, p c) training rows (c in {1/2, 4/5, 3/2, 3}) and 400 test rows. *)
Definition problem_from (ens : list (string * family R)) (names : list string) (pr : mat * mat) : Prop :=
  exists nm fam p c true_cov ga gb gc gd, In nm names /\ key ens nm = Ok fam /\ In p [15; 25; 40; 60] /\ In c [(1, 2); (4, 5); (3, 2); (3, 1)] /\
    f_gen fam p ga = Ok (true_cov, gb) /\
    sample R true_cov (Nat.max 10 (p * fst c / snd c)) (f_heavy fam) gb = Ok (fst pr, gc) /\
    sample R true_cov 400 (f_heavy fam) gc = Ok (snd pr, gd).
Lemma choose_in {A} (l : list A) g x g' : choose R l g = Ok (x, g') -> In x l.
Proof.
  unfold choose. intros E. apply dbind_ok in E as (i & g1 & _ & E). apply dlift_ok in E as [E _]. destruct (nth_error l i) eqn:F; [|discriminate].
  injection E as <-. eapply nth_error_In, F.
Qed.
Lemma problem_ok ens names g pr g' : problem R ens names g = Ok (pr, g') -> problem_from ens names pr.
Proof.
  unfold problem. intros E. apply dbind_ok in E as (nm & g1 & E1 & E). apply dbind_ok in E as (fam & g2 & E2 & E). apply dlift_ok in E2 as [E2 ->].
  apply dbind_ok in E as (p & g3 & E3 & E). apply dbind_ok in E as (c & g4 & E4 & E). apply dbind_ok in E as (tc & g5 & E5 & E).
  apply dbind_ok in E as (tr & g6 & E6 & E). apply dbind_ok in E as (te & g7 & E7 & E). apply dret_ok in E as [-> _].
  exists nm, fam, p, c, tc, g4, g5, g6, g7. split; [eapply pick_in, E1|]. split; [exact E2|]. split; [exact (choose_in _ _ _ _ E3)|].
  split; [exact (choose_in _ _ _ _ E4)|]. split; [exact E5|]. split; [|exact E7]. cbn [fst]. unfold window_len in E6. rewrite Nat.max_comm in E6. exact E6.
Qed.

(** What a trained recommender is: a tree fitted to [n_problems] examples, each made of a problem of the given families, with the
    problem's features and the name of a registered estimator for its label; it predicts from the features of the window alone. *)
Theorem C101_training_set sk_fit ens names n_problems a g rec g' :
  train_recommender L fuel R sk_fit ens names n_problems a g = Ok (rec, g') ->
  exists set t, length set = n_problems /\ set <> [] /\
    (forall f y, In (f, y) set -> In y (estimator_names L fuel) /\
       exists pr, problem_from ens names pr /\ train_features L (fst pr) = Ok f /\ example L fuel a pr = Ok (f, y)) /\
    fit_tree sk_fit set = Ok t /\ rec = predict L t.
Proof.
  unfold train_recommender. intros E. apply dbind_ok in E as (set & g1 & E1 & E). apply dbind_ok in E as (t & g2 & E2 & E). apply dlift_ok in E2 as [E2 ->].
  apply dret_ok in E as [-> _]. destruct (dtimes_ok _ _ _ _ _ E1) as [HL HI]. exists set, t. split; [exact HL|].
  split; [intros ->; discriminate E2|]. split; [|split; [exact E2|reflexivity]].
  intros f y Hi. destruct (HI _ Hi) as (ga & gb & H). apply dbind_ok in H as (pr & gc & Hp & H). apply dlift_ok in H as [H _].
  destruct (example_inv _ _ _ _ H) as [Hf Hy]. split; [exact Hy|]. exists pr. split; [eapply problem_ok, Hp|]. auto.
Qed.
(** With a classifier that only ever answers with labels it was trained on, the picks are registered estimators. *)
Theorem C101_picks_are_registered sk_fit ens names n_problems a g rec g' window nm :
  (forall X y clf x c, sk_fit X y = Ok clf -> clf x = Ok c -> In c y) ->
  train_recommender L fuel R sk_fit ens names n_problems a g = Ok (rec, g') -> rec window = Ok nm -> In nm (estimator_names L fuel).
Proof.
  intros HS E EW. destruct (C101_training_set _ _ _ _ _ _ _ _ E) as (set & t & _ & Hne & HI & Ht & ->).
  unfold predict in EW. apply bind_ok in EW as (f & _ & EW). apply bind_ok in EW as (x & _ & EW).
  unfold fit_tree in Ht. destruct set as [|e set]; [contradiction|]. set (s := e :: set) in *. cbv zeta in Ht.
  apply bind_ok in Ht as (Z & _ & Ht). apply bind_ok in Ht as (clf & Hc & Ht). injection Ht as <-. cbn [snd] in EW.
  assert (H := HS _ _ _ _ _ Hc EW). apply in_map_iff in H as ([f0 y0] & <- & H). apply (HI _ _ H).
Qed.

(** ** generate *)
(** The shipped pipeline's training set is the one the leak-free protocol would use with all the families, whenever it finishes. *)
Theorem C101_generate_mirrors_training ens n_problems g set g' : generate L fuel R ens n_problems g = Ok (set, g') ->
  dtimes R n_problems (dbind R (problem R ens (map fst ens)) (fun pr => dlift R (example L fuel GMVVariance pr))) g = Ok (set, g').
Proof.
  unfold generate. apply dtimes_sub. clear. intros g [f y] g' E. apply dbind_ok in E as (pr & g1 & E1 & E). apply dlift_ok in E as [E ->].
  unfold dbind. rewrite E1. unfold dlift.
  assert (X : example L fuel GMVVariance pr = Ok (f, y)); [|now rewrite X].
  unfold example_raising in E. unfold example. apply bind_ok in E as (sc & E2 & E).
  assert (G : forall ks sc', mapM (fun k : Signed N => cov <- fit_cov k (fst pr) ;; assess L GMVVariance cov (Some (snd pr)) None) ks = Ok sc' ->
    mapM (fun k : Signed N => or_minus_inf (cov <- fit_cov k (fst pr) ;; assess L GMVVariance cov (Some (snd pr)) None)) ks = Ok sc').
  { induction ks as [|k ks IH]; intros sc' H; [exact H|]. cbn [mapM] in *. apply bind_ok in H as (s & H1 & H). apply bind_ok in H as (l & H2 & H).
    rewrite H1. cbn [or_minus_inf bind]. rewrite (IH _ H2). exact H. }
  rewrite (G _ _ E2). cbn [bind]. exact E.
Qed.
(** But there an estimator that raises stops the whole generation, while in the protocol it only loses that problem. *)
Lemma mapM_in_err {A B} (f : A -> res B) l a e : In a l -> f a = Err e -> exists e', mapM f l = Err e'.
Proof.
  induction l as [|b l IH]; [intros []|]. intros [->|Hi] E; cbn [mapM].
  - rewrite E. cbn [bind]. eexists; reflexivity.
  - destruct (f b); cbn [bind]; [|eauto]. destruct (IH Hi E) as (e' & ->). cbn. eauto.
Qed.
Theorem C101_generate_stops_at_a_failure pr k e : In k (signatures L fuel) -> fit_cov k (fst pr) = Err e ->
  (exists e', example_raising L fuel GMVVariance pr = Err e') /\
  forall ens n_problems g1 g, problem R ens (map fst ens) g = Ok (pr, g1) -> exists e', generate L fuel R ens (S n_problems) g = Err e'.
Proof.
  intros Hk Ek.
  assert (X : exists e', example_raising L fuel GMVVariance pr = Err e').
  { unfold example_raising.
    destruct (mapM_in_err (fun k : Signed N => cov <- fit_cov k (fst pr) ;; assess L GMVVariance cov (Some (snd pr)) None) (ests L fuel) k e Hk) as (e' & E);
      [now rewrite Ek|]. rewrite E. cbn. eauto. }
  split; [exact X|]. destruct X as (e' & X). intros ens n g1 g E. exists e'. unfold generate. cbn [dtimes]. unfold dbind at 1. unfold dbind at 1.
  rewrite E. unfold dlift. now rewrite X.
Qed.

(** ** The protocols *)
(** With nothing to train on, no trials or a single family they raise ValueError. *)
Theorem C101_nothing_to_do sk_fit ens p n_train n_test trials n_problems a held g :
  (train_recommender L fuel R sk_fit ens (others (map fst ens) held) 0 a g = Err ValueError) /\
  (best_fixed_draw L fuel model R ens (others (map fst ens) held) p n_train n_test 0 a g = Err ValueError) /\
  (forall fam, leave_one_ensemble_out L fuel model R [(held, fam)] p n_train n_test trials a g = Err ValueError /\
     leave_one_family_out_trained L fuel model R sk_fit [(held, fam)] p n_train n_test trials n_problems a g = Err ValueError).
Proof.
  split; [reflexivity|]. split; [reflexivity|]. intros fam.
  assert (O : others [held] held = []) by (unfold others; cbn [filter]; now rewrite String.eqb_refl).
  assert (B : forall e g, best_fixed_draw L fuel model R e [] p n_train n_test trials a g = Err ValueError) by (intros e g'; destruct trials; reflexivity).
  assert (T : forall e g, train_recommender L fuel R sk_fit e [] n_problems a g = Err ValueError) by (intros e g'; destruct n_problems; reflexivity).
  split.
  - unfold leave_one_ensemble_out. cbn [map fst dmap]. unfold dbind at 1, dbind at 1, ensemble_out. cbn [map fst]. rewrite O. unfold dbind at 1. now rewrite B.
  - unfold leave_one_family_out_trained. cbn [map fst dmap]. unfold dbind at 1, dbind at 1, family_out. cbn [map fst]. rewrite O. unfold dbind at 1. now rewrite T.
Qed.
(** The scores of a trial are those of every registered estimator, and a trial with the shipped recommender is the one of C97. *)
Lemma trial_scores_names a train test sc : trial_scores L fuel a train test = Ok sc -> map fst sc = estimator_names L fuel.
Proof.
  intros E. rewrite <- names_eq. refine (mapM_fst _ _ _ _ _ E). intros k x Hx. cbn beta in Hx. apply bind_ok in Hx as (s & _ & Hx). now injection Hx as <-.
Qed.
Lemma shipped_registered train nm : shipped L fuel model train = Ok nm -> In nm (estimator_names L fuel).
Proof.
  unfold shipped. intros E. apply bind_ok in E as (top & E1 & E). destruct (suggest_one _ _ _ _ _ E1) as (r & -> & Hr). injection E as <-.
  unfold estimator_names. now apply (in_map (fun r => c_name (rg_class r))).
Qed.
Theorem C101_trial fam p n_train n_test a recommender g sc rec g' :
  trial_draw L fuel R fam p n_train n_test a recommender g = Ok ((sc, rec), g') ->
  exists true_cov train test g1 g2, f_gen fam p g = Ok (true_cov, g1) /\ sample R true_cov n_train (f_heavy fam) g1 = Ok (train, g2) /\
    sample R true_cov n_test (f_heavy fam) g2 = Ok (test, g') /\ recommender train = Ok rec /\ map fst sc = estimator_names L fuel /\
    (recommender = shipped L fuel model -> trial L fuel model a train test = Ok (sc, rec)).
Proof.
  unfold trial_draw. intros E. apply dbind_ok in E as (tc & g1 & E1 & E). apply dbind_ok in E as (tr & g2 & E2 & E). apply dbind_ok in E as (te & g3 & E3 & E).
  apply dbind_ok in E as (sc' & g4 & E4 & E). apply dlift_ok in E4 as [E4 ->]. apply dbind_ok in E as (rec' & g5 & E5 & E). apply dlift_ok in E5 as [E5 ->].
  apply dret_ok in E as [E ->]. injection E as -> ->. exists tc, tr, te, g1, g2. repeat (split; [assumption|]). split; [eapply trial_scores_names, E4|].
  intros ->. unfold trial. unfold trial_scores in E4. rewrite E4. cbn [bind]. unfold shipped in E5. apply bind_ok in E5 as (top & E5 & E6). rewrite E5. cbn [bind].
  rewrite E6. reflexivity.
Qed.
End Protocols.

(** ** Labels: np.argmax over the scores *)
Lemma classic_nan (x : xreal) : x = NaN \/ x <> NaN. Proof. destruct x; [right|right|right|left]; congruence. Qed.
Lemma argmax_go_spec (l : list xreal) : forall (pre : list xreal) (mp : xreal) bi, nth_error pre bi = Some mp ->
  (forall j x, nth_error pre j = Some x -> j <> bi -> x <> NaN /\ (mp = NaN \/ (xle x mp /\ ((j < bi)%nat -> ~ xle mp x)))) ->
  (mp = NaN -> (S bi = length pre)%nat) ->
  exists i x, argmax_go (N := NumX) mp bi (length pre) l = i /\ nth_error (pre ++ l) i = Some x /\
    ((x = NaN /\ forall j y, (j < i)%nat -> nth_error (pre ++ l) j = Some y -> y <> NaN) \/
     (x <> NaN /\ (forall j y, nth_error (pre ++ l) j = Some y -> y <> NaN /\ xle y x) /\ forall j y, (j < i)%nat -> nth_error (pre ++ l) j = Some y -> ~ xle x y)).
Proof.
  assert (RF : forall x, x <> NaN -> xle x x) by (intros [r| | |]; simpl; auto; try lra; congruence).
  induction l as [|x l IH]; intros pre mp bi Hb HP HN.
  - cbn [argmax_go]. rewrite app_nil_r.
    exists bi, mp. split; [destruct (@nisnan NumX mp); reflexivity|]. split; [exact Hb|]. destruct (classic_nan mp) as [E|E].
    + left. split; [exact E|]. intros j y Hj Hy. apply (HP j y Hy). lia.
    + right. split; [exact E|]. split.
      * intros j y Hy. destruct (Nat.eq_dec j bi) as [->|Hn]; [replace y with mp by congruence; auto|]. destruct (HP j y Hy Hn) as [H1 [H2|[H2 _]]]; [contradiction|auto].
      * intros j y Hj Hy. destruct (HP j y Hy) as [_ [H2|[_ H2]]]; [lia|contradiction|auto].
  - cbn [argmax_go]. destruct (classic_nan mp) as [E|E].
    + subst mp. cbn [NumX nisnan xisnan]. exists bi, NaN. split; [reflexivity|]. assert (Hlt : (bi < length pre)%nat) by (apply nth_error_Some; congruence).
      split; [rewrite nth_error_app1 by exact Hlt; exact Hb|]. left. split; [reflexivity|]. intros j y Hj Hy. rewrite nth_error_app1 in Hy by lia. apply (HP j y Hy). lia.
    + replace (@nisnan NumX mp) with false by (destruct mp; [reflexivity..|congruence]).
      assert (EL : (pre ++ x :: l) = ((pre ++ [x]) ++ l)) by (rewrite <- app_assoc; reflexivity). rewrite EL.
      assert (Hlt : (bi < length pre)%nat) by (apply nth_error_Some; congruence).
      replace (S (length pre)) with (length (pre ++ [x])) by (rewrite app_length; simpl; lia).
      destruct (@nleb NumX x mp) eqn:C.
      * assert (Hx : xle x mp) by (cbn in C; destruct x, mp; simpl in C |- *; try discriminate; auto; unfold Rleb in C; destruct Rle_dec; [assumption|discriminate]).
        apply IH; [now rewrite nth_error_app1| |intros E'; contradiction].
        intros j y Hy Hn. destruct (Nat.lt_ge_cases j (length pre)) as [Hj|Hj].
        -- rewrite nth_error_app1 in Hy by exact Hj. now apply HP.
        -- rewrite nth_error_app2 in Hy by exact Hj. destruct (j - length pre)%nat as [|k] eqn:F; [|destruct k; discriminate]. injection Hy as <-.
           split; [destruct x; simpl in Hx; try congruence; destruct mp; contradiction|]. right. split; [exact Hx|]. intros; lia.
      * apply IH.
        -- rewrite nth_error_app2, Nat.sub_diag by lia. reflexivity.
        -- intros j y Hy Hn. destruct (Nat.lt_ge_cases j (length pre)) as [Hj|Hj].
           ++ rewrite nth_error_app1 in Hy by exact Hj.
              assert (Hy' : y <> NaN /\ xle y mp).
              { destruct (Nat.eq_dec j bi) as [->|Hnb]; [replace y with mp by congruence; split; [exact E|now apply RF]|]. destruct (HP j y Hy Hnb) as [H1 [H2|[H2 _]]]; [contradiction|auto]. }
              destruct Hy' as [H1 H2]. split; [exact H1|]. destruct (classic_nan x) as [Ex|Ex]; [now left|right].
              assert (Hm : xle mp x /\ ~ xle x mp).
              { clear -C E Ex. cbn in C. destruct x, mp; simpl in *; try congruence; auto. unfold Rleb in C. destruct Rle_dec; [discriminate|]. lra. }
              destruct Hm as [M1 M2]. split.
              ** clear -H2 M1. destruct y, mp, x; simpl in *; try contradiction; auto. lra.
              ** intros _ H3. apply M2. clear -H2 H3. destruct y, mp, x; simpl in *; try contradiction; auto. lra.
           ++ rewrite nth_error_app2 in Hy by exact Hj. destruct (j - length pre)%nat as [|k] eqn:F; [lia|destruct k; discriminate].
        -- intros _. rewrite app_length. simpl. lia.
Qed.

(** The label is the first of the registered estimators with the greatest score; but if some score is NaN it is the first estimator whose
    score is NaN, whatever the others scored. *)
Theorem C101_label (L : LinAlg NumX) fuel (sc : list xreal) y : length sc = length (signatures L fuel) -> label L fuel sc = Ok y ->
  exists i k s, nth_error (signatures L fuel) i = Some k /\ y = c_name (sg_class k) /\ nth_error sc i = Some s /\
    ((s = NaN /\ forall j t, (j < i)%nat -> nth_error sc j = Some t -> t <> NaN) \/
     ((forall j t, nth_error sc j = Some t -> xle t s) /\ forall j t, (j < i)%nat -> nth_error sc j = Some t -> ~ xle s t)).
Proof.
  intros HL E. unfold label in E. apply bind_ok in E as (i & Ei & E). unfold np_argmax in Ei. destruct sc as [|x sc]; [discriminate|].
  injection Ei as Ei.
  destruct (argmax_go_spec sc [x] x 0 eq_refl) as (i' & s & F1 & F2 & F3).
  { intros [|j] y0 Hy Hn; [congruence|]. destruct j; discriminate. }
  { reflexivity. }
  assert (i' = i) by (rewrite <- F1, <- Ei; reflexivity). clear F1 Ei. subst i'.
  destruct (nth_error (map _ (ests L fuel)) i) as [nm|] eqn:En; [|discriminate]. injection E as <-.
  rewrite nth_error_map in En. change (ests L fuel) with (signatures L fuel) in En. destruct (nth_error (signatures L fuel) i) as [k|] eqn:Ek; [|discriminate].
  injection En as <-. exists i, k, s. split; [exact Ek|]. split; [reflexivity|]. split; [exact F2|].
  destruct F3 as [[F3 F4]|(F3 & F4 & F5)]; [left; auto|right]. split; [|exact F5]. intros j t Ht. apply (F4 j t Ht).
Qed.
(** When every estimator fails, the label is the first registered one. *)
Corollary C101_all_fail (L : LinAlg NumX) fuel a pr f y : example L fuel a pr = Ok (f, y) ->
  (forall k, In k (signatures L fuel) -> exists e, (cov <- fit_cov k (fst pr) ;; assess L a cov (Some (snd pr)) None) = Err e) ->
  Some y = hd_error (estimator_names L fuel).
Proof.
  unfold example. intros E HF. apply bind_ok in E as (sc & E1 & E). apply bind_ok in E as (f' & _ & E). apply bind_ok in E as (y' & E2 & E). injection E as _ <-.
  assert (HI : forall s, In s sc -> s = (minus_inf : NumX)).
  { intros s Hs. destruct (mapM_in _ _ _ E1 s Hs) as (k & Hk & Es). destruct (HF k Hk) as (e & Ee). rewrite Ee in Es. destruct e; cbn [or_minus_inf] in Es; first [discriminate Es|now injection Es as <-]. }
  destruct (C101_label L fuel sc y') as (i & k & s & K1 & -> & K2 & K3); [exact (mapM_length _ _ _ E1)|exact E2|].
  assert (i = 0)%nat as ->.
  { destruct i as [|i]; [reflexivity|exfalso]. assert (Hs := HI s (nth_error_In _ _ K2)).
    assert (MN : (minus_inf : NumX) = NInf) by (unfold minus_inf; cbn; unfold Reqb; destruct (Req_EM_T 0 0); [|lra]; cbn; unfold Rltb; destruct (Rlt_dec 0 1); [reflexivity|lra]).
    destruct sc as [|s0 sc]; [discriminate|]. destruct K3 as [[K3 _]|[_ K3]]; [congruence|]. apply (K3 0%nat s0); [lia|reflexivity|].
    rewrite Hs, (HI s0 (or_introl eq_refl)), MN. exact I. }
  rewrite <- names_eq. change (ests L fuel) with (signatures L fuel). destruct (signatures L fuel) as [|k0 l]; [discriminate|]. injection K1 as ->. reflexivity.
Qed.

(** ** Ranks in the results *)
Section Ranks.
Context (L : LinAlg NumX) (fuel : nat) (model : bool) (R : Rand NumX).
Lemma key_in {A} (d : list (string * A)) k v : key d k = Ok v -> In (k, v) d.
Proof. unfold key. destruct (find _ d) as [e|] eqn:E; [|discriminate]. intros [= <-]. apply find_some in E as [E1 E2]. apply String.eqb_eq in E2. destruct e; cbn in *; subst; exact E1. Qed.
Lemma rank_range (sc : list (string * xreal)) nm r : key (ranks (N := NumX) sc) nm = Ok r -> (1 <= r <= length sc)%nat.
Proof.
  intros E. apply key_in, (in_map snd) in E. destruct (C97_ranks_bijection (N := NumX) sc) as [H _]. cbn [snd] in E. rewrite H in E. apply in_seq in E. destruct E as [E1 E2]. split; [exact E1|apply Nat.lt_succ_r; exact E2].
Qed.
Lemma sum_range k l : (forall r, In r l -> (1 <= r <= k)%nat) -> (length l <= list_sum l <= k * length l)%nat.
Proof.
  induction l as [|r l IH]; intros H; [simpl; lia|]. assert (X := H r (or_introl eq_refl)).
  assert (Y : (length l <= list_sum l <= k * length l)%nat) by (apply IH; intros; apply H; now right).
  change (list_sum (r :: l)) with (r + list_sum l)%nat. simpl length. nia.
Qed.
Lemma mean_range k l : l <> [] -> (forall r, In r l -> (1 <= r <= k)%nat) -> exists m, mean_rank (N := NumX) l = Fin m /\ (1 <= m <= INR k)%R.
Proof.
  intros Hl H. eexists. split; [now apply mean_rank_fin|]. assert (S := sum_range k l H).
  assert (P : (0 < INR (length l))%R) by (apply lt_0_INR; destruct l; [contradiction|simpl; lia]). destruct S as [S1 S2].
  apply le_INR in S1, S2. rewrite mult_INR in S2. unfold Rdiv. split.
  - apply (Rmult_le_reg_r (INR (length l))); [exact P|]. rewrite Rmult_assoc, Rinv_l by lra. lra.
  - apply (Rmult_le_reg_r (INR (length l))); [exact P|]. rewrite Rmult_assoc, Rinv_l by lra. lra.
Qed.
Lemma evaluate_ok fam p n_train n_test trials a rec bf g r g' : (1 <= trials)%nat -> evaluate L fuel R fam p n_train n_test trials a rec bf g = Ok (r, g') ->
  l_best_fixed r = bf /\ (exists m, l_rank_recommender r = Fin m /\ (1 <= m <= 17)%R) /\ (exists m, l_rank_best_fixed r = Fin m /\ (1 <= m <= 17)%R).
Proof.
  intros HT E. unfold evaluate in E. apply dbind_ok in E as (rks & g1 & E1 & E). apply dret_ok in E as [-> _].
  destruct (dtimes_ok _ _ _ _ _ E1) as [HL HI].
  assert (HR : forall x, In x rks -> (1 <= fst x <= 17)%nat /\ (1 <= snd x <= 17)%nat).
  { intros [u v] Hx. destruct (HI _ Hx) as (ga & gb & H). apply dbind_ok in H as ([sc rec'] & gc & H1 & H). apply dbind_ok in H as (u' & gd & H2 & H). apply dlift_ok in H2 as [H2 ->].
    apply dbind_ok in H as (v' & ge & H3 & H). apply dlift_ok in H3 as [H3 ->]. apply dret_ok in H as [H _]. injection H as -> ->.
    destruct (C101_trial L fuel model R _ _ _ _ _ _ _ _ _ _ H1) as (_ & _ & _ & _ & _ & _ & _ & _ & _ & Hn & _).
    assert (Hl : length sc = 17%nat) by (rewrite <- (map_length fst), Hn; reflexivity).
    apply rank_range in H2, H3. destruct H2 as [A1 A2], H3 as [B1 B2]. split; split; auto; rewrite <- Hl; assumption. }
  assert (NE : rks <> []) by (intros ->; simpl in HL; lia). cbn [l_best_fixed l_rank_recommender l_rank_best_fixed]. split; [reflexivity|].
  assert (I17 : INR 17 = 17%R) by (cbn; lra).
  split.
  - destruct (mean_range 17 (map fst rks)) as (m & Em & Hm); [destruct rks; [contradiction|discriminate]|intros x Hx; apply in_map_iff in Hx as (y & <- & Hy); apply HR, Hy|]. exists m. rewrite I17 in Hm. auto.
  - destruct (mean_range 17 (map snd rks)) as (m & Em & Hm); [destruct rks; [contradiction|discriminate]|intros x Hx; apply in_map_iff in Hx as (y & <- & Hy); apply HR, Hy|]. exists m. rewrite I17 in Hm. auto.
Qed.
Lemma best_fixed_registered ens names p n_train n_test trials a g bf g' : best_fixed_draw L fuel model R ens names p n_train n_test trials a g = Ok (bf, g') ->
  (1 <= trials)%nat /\ In bf (estimator_names L fuel).
Proof.
  unfold best_fixed_draw. intros E. apply dbind_ok in E as (scs & g1 & E1 & E). apply dlift_ok in E as [E _]. destruct (dtimes_ok _ _ _ _ _ E1) as [HL HI].
  assert (HN : scs <> []) by (intros ->; discriminate E). split; [destruct scs; [contradiction|simpl in HL; lia]|].
  destruct (C97_best_fixed scs (estimator_names L fuel)) as (nm & rs & E2 & Hin & _); auto.
  - rewrite <- names_eq. cbn. discriminate.
  - rewrite <- names_eq. apply names_nodup.
  - intros t Ht. destruct (HI t Ht) as (ga & gb & H). apply dbind_ok in H as (nm & gc & _ & H). apply dbind_ok in H as (fam & gd & _ & H).
    apply dbind_ok in H as ([sc rec] & ge & H1 & H). apply dret_ok in H as [-> _].
    destruct (C101_trial L fuel model R _ _ _ _ _ _ _ _ _ _ H1) as (_ & _ & _ & _ & _ & _ & _ & _ & _ & Hn & _). match goal with |- Permutation ?x _ => replace x with (estimator_names L fuel) by (symmetry; exact Hn) end. apply Permutation_refl.
  - rewrite E2 in E. injection E as <-. exact Hin.
Qed.

(** A finished protocol has one entry per family, in order: a registered estimator as the fixed one and two mean ranks between 1 (the best
    of the 17 every time) and 17. *)
Definition proper_results (names : list string) (results : list (string * lofo (N := NumX))) : Prop :=
  map fst results = names /\
  forall held r, In (held, r) results -> In (l_best_fixed r) (estimator_names L fuel) /\
    (exists m, l_rank_recommender r = Fin m /\ (1 <= m <= 17)%R) /\ (exists m, l_rank_best_fixed r = Fin m /\ (1 <= m <= 17)%R).
Lemma dmap_results (f : string -> D R (lofo (N := NumX))) names g results g' :
  (forall held g r g', f held g = Ok (r, g') -> In (l_best_fixed r) (estimator_names L fuel) /\
    (exists m, l_rank_recommender r = Fin m /\ (1 <= m <= 17)%R) /\ (exists m, l_rank_best_fixed r = Fin m /\ (1 <= m <= 17)%R)) ->
  dmap R (fun held => dbind R (f held) (fun r => dret R (held, r))) names g = Ok (results, g') -> proper_results names results.
Proof.
  intros H E. apply dmap_ok in E. unfold proper_results. induction E as [|held [h r] names results (g0 & g1 & E) _ [IH1 IH2]]; [split; [reflexivity|intros h r []]|].
  apply dbind_ok in E as (r' & g2 & E1 & E). apply dret_ok in E as [E _]. injection E as -> ->. split; [simpl; now rewrite IH1|].
  intros h r0 [Hi|Hi]; [injection Hi as <- <-; eapply H, E1|eapply IH2, Hi].
Qed.
Theorem C101_leave_one_family_out sk_fit ens p n_train n_test trials n_problems a g results g' :
  leave_one_family_out_trained L fuel model R sk_fit ens p n_train n_test trials n_problems a g = Ok (results, g') ->
  proper_results (map fst ens) results.
Proof.
  apply dmap_results. intros held g0 r g1 E. destruct (C101_held_out_entry _ _ _ _ _ _ _ _ _ _ _ _ _ _ _ _ E) as (rec & bf & fam & ga & gb & _ & E2 & _ & E4).
  apply best_fixed_registered in E2 as [HT Hbf]. destruct (evaluate_ok _ _ _ _ _ _ _ _ _ _ _ HT E4) as (-> & H2). auto.
Qed.
Theorem C101_leave_one_ensemble_out ens p n_train n_test trials a g results g' :
  leave_one_ensemble_out L fuel model R ens p n_train n_test trials a g = Ok (results, g') -> proper_results (map fst ens) results.
Proof.
  apply dmap_results. intros held g0 r g1 E. unfold ensemble_out in E. apply dbind_ok in E as (bf & ga & E2 & E). apply dbind_ok in E as (fam & gb & _ & E4).
  apply best_fixed_registered in E2 as [HT Hbf]. destruct (evaluate_ok _ _ _ _ _ _ _ _ _ _ _ HT E4) as (-> & H2). auto.
Qed.
(** A recommender that answers with a name that is not registered makes the evaluation raise KeyError. *)
Theorem C101_unknown_pick fam p n_train n_test trials a rec bf g sc nm g' :
  trial_draw L fuel R fam p n_train n_test a rec g = Ok ((sc, nm), g') -> ~ In nm (estimator_names L fuel) ->
  evaluate L fuel R fam p n_train n_test (S trials) a rec bf g = Err KeyError.
Proof.
  intros E H. unfold evaluate. cbn [dtimes]. unfold dbind at 1, dbind at 1, dbind at 1. rewrite E. unfold dbind at 1, dlift at 1.
  assert (K : key (ranks (N := NumX) sc) nm = Err KeyError); [|now rewrite K].
  unfold key. destruct (find _ _) as [e|] eqn:F; [exfalso|reflexivity]. apply find_some in F as [F1 F2]. apply String.eqb_eq in F2. apply H. rewrite <- F2.
  destruct (C101_trial L fuel model R _ _ _ _ _ _ _ _ _ _ E) as (_ & _ & _ & _ & _ & _ & _ & _ & _ & Hn & _). rewrite <- Hn.
  destruct (C97_ranks_bijection (N := NumX) sc) as [_ P]. apply (Permutation_in _ P). now apply in_map.
Qed.
End Ranks.

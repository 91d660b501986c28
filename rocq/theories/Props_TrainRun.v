(** * C101: the leave-one-out protocols complete; what is reported and exported; the scenarios of the bake-off *)
From Coq Require Import Reals ZArith Bool String List Lia Lra Arith Permutation.
From Verif Require Import Num Numpy PyVal LinalgModel StateModel BaseModel Estimators RegistryModel ParamsModel AssessModel RecommendModel
  Spec RMat LinSpec ListLemmas Fin RealSpec Contracts OosModel OosSpec TrainModel RecommendSpec Props_RecommendReal Props_Params Props_Recommend
  Props_Oos Props_OosReal Props_OosWitness Props_Ranks Props_RanksWitness Props_Train.
Import ListNotations.
Local Open Scope string_scope.
Local Open Scope list_scope.

Section Total.
  Context {R : Rand NumX}.
  (** A computation that returns a value with a property from every state of the generator. *)
  Definition total {A} (P : A -> Prop) (m : D R A) : Prop := forall g, exists a g', m g = Ok (a, g') /\ P a.
  Lemma total_ret {A} (P : A -> Prop) a : P a -> total P (dret R a).
  Proof. intros H g. exists a, g. auto. Qed.
  Lemma total_lift {A} (P : A -> Prop) r : (exists a, r = Ok a /\ P a) -> total P (dlift R r).
  Proof. intros (a & -> & H) g. exists a, g. auto. Qed.
  Lemma total_draw {A} (P : A -> Prop) f : (forall g, P (fst (f g))) -> total P (ddraw R f).
  Proof. intros H g. specialize (H g). unfold ddraw. destruct (f g) as [a g']. exists a, g'. auto. Qed.
  Lemma total_bind {A B} (P : A -> Prop) (Q : B -> Prop) m f : total P m -> (forall a, P a -> total Q (f a)) -> total Q (dbind R m f).
  Proof. intros Hm Hf g. destruct (Hm g) as (a & g1 & E & H). destruct (Hf a H g1) as (b & g2 & E2 & H2). exists b, g2. unfold dbind. rewrite E. auto. Qed.
  Lemma total_times {A} (P : A -> Prop) n m : total P m -> total (fun l => length l = n /\ Forall P l) (dtimes R n m).
  Proof.
    intros H. induction n as [|n IH]; cbn [dtimes]; [apply total_ret; auto|]. apply (total_bind P); [exact H|]. intros a Ha.
    refine (total_bind _ _ _ _ IH _). intros l [Hl HF]. apply total_ret. simpl. auto.
  Qed.
  Lemma total_map {A B} (P : B -> Prop) (f : A -> D R B) l : (forall a, In a l -> total P (f a)) -> total (fun _ => True) (dmap R f l).
  Proof.
    induction l as [|a l IH]; intros H; cbn [dmap]; [now apply total_ret|]. apply (total_bind P); [apply H; now left|]. intros b Hb.
    refine (total_bind _ _ _ _ (IH _) _); [intros; apply H; now right|]. intros; now apply total_ret.
  Qed.
  Lemma total_weak {A} (P Q : A -> Prop) m : (forall a, P a -> Q a) -> total P m -> total Q m.
  Proof. intros H Hm g. destruct (Hm g) as (a & g' & E & Ha). exists a, g'. auto. Qed.
End Total.

Lemma argmax_go_lt (l : list NumX) : forall (mp : NumX) bi i, (bi < i)%nat -> (argmax_go mp bi i l < i + length l)%nat.
Proof.
  induction l as [|x l IH]; intros mp bi i H; cbn [argmax_go length]; destruct nisnan; try lia. destruct nleb.
  - assert (X := IH mp bi (S i) ltac:(lia)). lia.
  - assert (X := IH x i (S i) ltac:(lia)). lia.
Qed.

Section Complete.
Context (L : LinAlg NumX) (fuel : nat) (model : bool) (R : Rand NumX) (sk_fit : mat NumX -> list string -> res (vec NumX -> res string))
  (ens : list (string * family R)) (a : assessor (N := NumX)) (W : mat NumX -> Prop).
Hypothesis rng_range : forall k g, (0 < k)%nat -> (fst (r_integers R k g) < k)%nat /\ (fst (r_choice R k g) < k)%nat.
Hypothesis families : forall nm fam, In (nm, fam) ens -> forall p, total (fun c => forall n, total W (TrainModel.sample R c n (f_heavy fam))) (f_gen fam p).
Hypothesis scored : forall tr te, W tr -> W te -> exists sc, trial_scores L fuel a tr te = Ok sc.
Hypothesis features : forall tr, W tr -> exists f, covariance_features L (In2 tr) = Ok f.
Hypothesis tree : forall X y, y <> [] -> exists clf, sk_fit X y = Ok clf /\ forall x, exists c, clf x = Ok c /\ In c y.
Hypothesis tree_empty : forall X clf, sk_fit X [] = Ok clf -> False.
Hypothesis names_distinct : NoDup (map fst ens).

Lemma total_pick names : names <> [] -> total (fun nm => In nm names) (pick_name R names).
Proof.
  intros H. unfold pick_name. destruct names as [|n0 names]; [contradiction|]. set (l := n0 :: names).
  apply (total_bind (fun i => (i < length l)%nat)); [apply total_draw; intros g; apply rng_range; simpl; lia|]. intros i Hi.
  apply total_lift. destruct (nth_error l i) eqn:E; [exists s; split; [reflexivity|eapply nth_error_In, E]|]. apply nth_error_None in E. lia.
Qed.
Lemma total_choose {A} (l : list A) : l <> [] -> total (fun x => In x l) (choose R l).
Proof.
  intros H. unfold choose. apply (total_bind (fun i => (i < length l)%nat)); [apply total_draw; intros g; apply rng_range; destruct l; [contradiction|simpl; lia]|]. intros i Hi.
  apply total_lift. destruct (nth_error l i) eqn:E; [exists a0; split; [reflexivity|eapply nth_error_In, E]|]. apply nth_error_None in E. lia.
Qed.
Lemma key_fam nm : In nm (map fst ens) -> exists fam, key ens nm = Ok fam /\ In (nm, fam) ens.
Proof. intros H. destruct (key_some ens nm H) as (fam & E). exists fam. split; [exact E|now apply key_in]. Qed.
Lemma shipped_total tr : W tr -> exists nm, shipped L fuel model tr = Ok nm /\ In nm (estimator_names L fuel).
Proof.
  intros H. destruct (features tr H) as (f & E). assert (X : exists nm, shipped L fuel model tr = Ok nm).
  { unfold shipped, suggest. rewrite E. cbn [bind]. destruct (ranking_perm L fuel model f) as (rk & Er & P). rewrite Er. cbn [bind].
    destruct rk as [|r rk]; [apply Permutation_length in P; discriminate|]. eexists; reflexivity. }
  destruct X as (nm & X). exists nm. split; [exact X|eapply shipped_registered, X].
Qed.
Lemma trial_total nm fam p n_train n_test rec : In (nm, fam) ens -> (forall tr, W tr -> exists nm, rec tr = Ok nm /\ In nm (estimator_names L fuel)) ->
  total (fun x => map fst (fst x) = estimator_names L fuel /\ In (snd x) (estimator_names L fuel)) (trial_draw L fuel R fam p n_train n_test a rec).
Proof.
  intros Hi HR. unfold trial_draw. refine (total_bind _ _ _ _ (families nm fam Hi p) _). intros c Hc. refine (total_bind _ _ _ _ (Hc n_train) _). intros tr Htr.
  refine (total_bind _ _ _ _ (Hc n_test) _). intros te Hte.
  apply (total_bind (fun sc => map fst sc = estimator_names L fuel)).
  { apply total_lift. destruct (scored tr te Htr Hte) as (sc & E). exists sc. split; [exact E|exact (trial_scores_names L fuel _ _ _ _ E)]. }
  intros sc Hsc. apply (total_bind (fun nm => In nm (estimator_names L fuel))); [apply total_lift; apply HR, Htr|]. intros r Hr. apply total_ret. auto.
Qed.
Lemma best_total names p n_train n_test trials : names <> [] -> (forall nm, In nm names -> In nm (map fst ens)) -> (1 <= trials)%nat ->
  total (fun bf => In bf (estimator_names L fuel)) (best_fixed_draw L fuel model R ens names p n_train n_test trials a).
Proof.
  intros Hne Hsub Ht. unfold best_fixed_draw.
  apply (total_bind (fun l => length l = trials /\ Forall (fun sc => map fst sc = estimator_names L fuel) l)).
  - apply total_times. refine (total_bind _ _ _ _ (total_pick names Hne) _). intros nm Hnm.
    apply (total_bind (fun fam => In (nm, fam) ens)); [apply total_lift; apply key_fam; auto|]. intros fam Hf.
    refine (total_bind _ _ _ _ (trial_total nm fam p n_train n_test (shipped L fuel model) Hf shipped_total) _). intros [sc r] [H _]. now apply total_ret.
  - intros l [Hl HF]. rewrite Forall_forall in HF. apply total_lift.
    destruct (C97_best_fixed l (estimator_names L fuel)) as (bf & rs & E & Hin & _); eauto.
    + rewrite <- names_eq. cbn. discriminate.
    + rewrite <- names_eq. apply names_nodup.
    + destruct l; [simpl in Hl; lia|discriminate].
    + intros t Hti. match goal with |- Permutation ?x _ => replace x with (estimator_names L fuel) by (symmetry; exact (HF t Hti)) end. apply Permutation_refl.
Qed.
Lemma rank_total (sc : list (string * xreal)) nm : map fst sc = estimator_names L fuel -> In nm (estimator_names L fuel) -> exists r, key (ranks (N := NumX) sc) nm = Ok r /\ True.
Proof.
  intros H Hn. destruct (key_some (ranks (N := NumX) sc) nm) as (r & E); [|eauto]. destruct (C97_ranks_bijection (N := NumX) sc) as [_ P].
  apply (Permutation_in _ (Permutation_sym P)). match goal with |- In _ ?x => replace x with (estimator_names L fuel) by (symmetry; exact H) end. exact Hn.
Qed.
Lemma evaluate_total nm fam p n_train n_test trials rec bf : In (nm, fam) ens -> (forall tr, W tr -> exists nm, rec tr = Ok nm /\ In nm (estimator_names L fuel)) ->
  In bf (estimator_names L fuel) -> total (fun _ => True) (evaluate L fuel R fam p n_train n_test trials a rec bf).
Proof.
  intros Hi HR Hb. unfold evaluate.
  apply (total_bind (fun l => length l = trials /\ Forall (fun _ => True) l)); [|intros; now apply total_ret]. apply total_times.
  refine (total_bind _ _ _ _ (trial_total nm fam p n_train n_test rec Hi HR) _). intros [sc r] [H1 H2]. cbn [fst snd] in H1, H2.
  apply (total_bind (fun _ => True)); [apply total_lift, rank_total; auto|]. intros u _. apply (total_bind (fun _ => True)); [apply total_lift, rank_total; auto|].
  intros v _. now apply total_ret.
Qed.
Lemma example_total tr te : W tr -> W te -> exists x, example L fuel a (tr, te) = Ok x /\ length (fst x) = 7%nat.
Proof.
  intros H1 H2. destruct (scored tr te H1 H2) as (sc & E). destruct (features tr H1) as (f & Ef). unfold example. cbn [fst snd].
  assert (G : forall ks sc', mapM (fun k : Signed NumX => s <- or_minus_inf (cov <- fit_cov k tr ;; assess L a cov (Some te) None) ;; Ok (est_name k, s)) ks = Ok sc' ->
    exists l, mapM (fun k : Signed NumX => or_minus_inf (cov <- fit_cov k tr ;; assess L a cov (Some te) None)) ks = Ok l /\ length l = length ks).
  { induction ks as [|k ks IH]; intros sc' HM; cbn [mapM] in *; [exists []; auto|]. apply bind_ok in HM as (x & HM1 & HM). apply bind_ok in HM as (l' & HM2 & _).
    apply bind_ok in HM1 as (s & HM1 & _). destruct (IH _ HM2) as (l & El & Hl). exists (s :: l). split; [|cbn [length]; f_equal; exact Hl].
    match goal with |- bind ?m _ = _ => assert (Em : m = Ok s) by exact HM1; rewrite Em end. cbn [bind]. now rewrite El. }
  destruct (G _ _ E) as (l & El & Hl).
  match goal with |- exists _, bind ?m _ = _ /\ _ => assert (Em : m = Ok l) by exact El; rewrite Em end. cbn [bind].
  unfold train_features. rewrite Ef. cbn [bind].
  assert (X : exists y, label L fuel l = Ok y).
  { unfold label, np_argmax. destruct l as [|x l]; [simpl in Hl; discriminate|]. cbn [bind].
    assert (HA := argmax_go_lt l x 0 1 ltac:(lia)).
    destruct (nth_error _ _) eqn:F; [eauto|]. apply nth_error_None in F. rewrite map_length, <- Hl in F. simpl length in F, HA. lia. }
  destruct X as (y & ->). cbn. eauto.
Qed.
Lemma bc_same {A B C} (h : A -> B -> C) u v : length u = length v -> exists w, bc h u v = Ok w /\ length w = length u.
Proof.
  intros H. unfold bc. rewrite H, Nat.eqb_refl. exists (zipw h u v). split; [reflexivity|]. revert v H.
  induction u as [|x u IH]; intros [|y v] H; simpl in *; try discriminate; [reflexivity|]. f_equal. apply IH. lia.
Qed.
Lemma standardise_total (m s x : vec NumX) : length m = length x -> length s = length x -> exists z, standardise m s x = Ok z.
Proof.
  intros H1 H2. unfold standardise, vsub, vdiv. destruct (bc_same (@nsub NumX) x m) as (d & -> & Hd); [congruence|]. cbn [bind].
  destruct (bc_same (@ndiv NumX) d s) as (z & -> & _); [congruence|]. eauto.
Qed.
Lemma train_total names n_problems : names <> [] -> (forall nm, In nm names -> In nm (map fst ens)) -> (1 <= n_problems)%nat ->
  total (fun rec => forall tr, W tr -> exists nm, rec tr = Ok nm) (train_recommender L fuel R sk_fit ens names n_problems a).
Proof.
  intros Hne Hsub Hn. unfold train_recommender.
  apply (total_bind (fun l => length l = n_problems /\ Forall (fun e : vec NumX * string => length (fst e) = 7%nat) l)).
  - apply total_times. apply (total_bind (fun pr : mat NumX * mat NumX => W (fst pr) /\ W (snd pr))).
    + unfold problem. refine (total_bind _ _ _ _ (total_pick names Hne) _). intros nm Hnm.
      apply (total_bind (fun fam => In (nm, fam) ens)); [apply total_lift; apply key_fam; auto|]. intros fam Hf.
      refine (total_bind _ _ _ _ (total_choose SIZES _) _); [discriminate|]. intros p _. refine (total_bind _ _ _ _ (total_choose RATIOS _) _); [discriminate|]. intros c _.
      refine (total_bind _ _ _ _ (families nm fam Hf p) _). intros tc Hc. refine (total_bind _ _ _ _ (Hc _) _). intros tr Htr. refine (total_bind _ _ _ _ (Hc _) _). intros te Hte.
      apply total_ret. auto.
    + intros [tr te] [H1 H2]. apply total_lift. apply example_total; auto.
  - intros set [Hl HF]. apply (total_bind (fun t => length (fst (fst t)) = 7%nat /\ length (snd (fst t)) = 7%nat /\ forall x, exists c, snd t x = Ok c)).
    + apply total_lift. unfold fit_tree. destruct set as [|e set]; [simpl in Hl; lia|]. cbv zeta. set (X := map fst (e :: set)).
      assert (HC : ncols X = 7%nat) by (unfold ncols, X; cbn; inversion HF; assumption).
      assert (HX : forall x, In x X -> length x = 7%nat) by (intros x Hx; apply in_map_iff in Hx as (u & <- & Hu); rewrite Forall_forall in HF; apply HF, Hu).
      destruct (mapM_exists (standardise (col_means X) (col_stds X)) X) as (Z & EZ).
      { intros x Hx. apply standardise_total; unfold col_means, col_stds, tab; rewrite map_length, seq_length, HC; symmetry; apply HX, Hx. }
      rewrite EZ. cbn [bind]. destruct (tree Z (map snd (e :: set))) as (clf & Ec & Hc); [discriminate|]. rewrite Ec. cbn [bind]. eexists. split; [reflexivity|].
      cbn [fst snd]. split; [unfold col_means, tab; now rewrite map_length, seq_length|]. split; [unfold col_stds, tab; now rewrite map_length, seq_length|].
      intros x. destruct (Hc x) as (c & E & _). eauto.
    + intros t (H1 & H2 & H3). apply total_ret. intros tr Htr. unfold predict, train_features. destruct (features tr Htr) as (f & ->). cbn [bind].
      destruct (standardise_total (fst (fst t)) (snd (fst t)) (FEATURES f)) as (x & Ex); [rewrite H1; reflexivity|rewrite H2; reflexivity|].
      match goal with |- exists _, bind ?m _ = _ => assert (Em : m = Ok x) by exact Ex; rewrite Em end. cbn [bind]. apply H3.
Qed.
Lemma others_ne held : (2 <= length ens)%nat -> others (map fst ens) held <> [].
Proof.
  intros H E. destruct ens as [|[n1 f1] [|[n2 f2] r]]; simpl in H; try lia. cbn [map fst] in *. inversion names_distinct as [|x y Hx _]; subst.
  assert (X : forall nm, In nm (n1 :: n2 :: map fst r) -> nm = held).
  { intros nm Hn. destruct (String.eqb_spec nm held) as [|Hd]; [assumption|exfalso].
    assert (I : In nm (others (n1 :: n2 :: map fst r) held)) by (apply others_in; auto). rewrite E in I. exact I. }
  apply Hx. rewrite (X n1), (X n2) by (simpl; auto). now left.
Qed.

(** The protocols complete from every state of the generator, when every family's generator and samples do, the estimates can be scored and
    the features computed on the windows that are drawn, and the classifier, given at least one example, answers with a label. *)
Theorem C101_completes p n_train n_test trials n_problems g : (2 <= length ens)%nat -> (1 <= trials)%nat -> (1 <= n_problems)%nat ->
  (exists results g', leave_one_ensemble_out L fuel model R ens p n_train n_test trials a g = Ok (results, g')) /\
  (exists results g', leave_one_family_out_trained L fuel model R sk_fit ens p n_train n_test trials n_problems a g = Ok (results, g')).
Proof.
  intros H2 Ht Hn.
  assert (HS : forall held nm, In nm (others (map fst ens) held) -> In nm (map fst ens)) by (intros held nm H; apply others_in in H; tauto).
  split.
  - assert (T : total (fun _ => True) (leave_one_ensemble_out L fuel model R ens p n_train n_test trials a)).
    { unfold leave_one_ensemble_out. apply (total_map (fun _ => True)). intros held Hh. apply (total_bind (fun _ => True)); [|intros; now apply total_ret].
      unfold ensemble_out. refine (total_bind _ _ _ _ (best_total (others (map fst ens) held) p n_train n_test trials (others_ne held H2) (HS held) Ht) _). intros bf Hb.
      apply (total_bind (fun fam => In (held, fam) ens)); [apply total_lift; apply key_fam; auto|]. intros fam Hf.
      apply (evaluate_total held); auto. exact shipped_total. }
    destruct (T g) as (r & g' & E & _). eauto.
  - assert (T : total (fun _ => True) (leave_one_family_out_trained L fuel model R sk_fit ens p n_train n_test trials n_problems a)).
    { unfold leave_one_family_out_trained. apply (total_map (fun _ => True)). intros held Hh. apply (total_bind (fun _ => True)); [|intros; now apply total_ret].
      unfold family_out. intros g0. destruct (train_total (others (map fst ens) held) n_problems (others_ne held H2) (HS held) Hn g0) as (rec & g1 & E1 & Hrec).
      unfold dbind at 1. rewrite E1.
      assert (HR : forall tr, W tr -> exists nm, rec tr = Ok nm /\ In nm (estimator_names L fuel)).
      { intros tr Htr. destruct (Hrec tr Htr) as (nm & En). exists nm. split; [exact En|].
        refine (C101_picks_are_registered L fuel R sk_fit ens (others (map fst ens) held) n_problems a g0 rec g1 tr nm _ E1 En).
        intros X y clf x c Hc Hx. destruct y as [|y0 y]; [|destruct (tree X (y0 :: y)) as (clf' & Ec & H'); [discriminate|]; rewrite Hc in Ec; injection Ec as <-; destruct (H' x) as (c' & Ex & Hin); congruence].
        exfalso. exact (tree_empty X clf Hc). }
      revert g1 E1. intros g1 _. revert g1.
      refine (total_bind _ _ _ _ (best_total (others (map fst ens) held) p n_train n_test trials (others_ne held H2) (HS held) Ht) _). intros bf Hb.
      apply (total_bind (fun fam => In (held, fam) ens)); [apply total_lift; apply key_fam; auto|]. intros fam Hf.
      apply (evaluate_total held); auto. }
    destruct (T g) as (r & g' & E & _). eauto.
Qed.
End Complete.

(** ** A case in which they complete: two families of the same toy data, and a classifier that answers with its first label *)
Definition toy_rows : mat NumX := map (fv 1) toy_train.
Definition toy_rand : Rand NumX :=
  mkRand NumX nat (fun k g => (0%nat, S g)) (fun k g => (0%nat, S g)) (fun lo hi n g => (repeat lo n, S g)) (fun n g => (repeat n0 n, S g))
    (fun n m g => (repeat (repeat n0 m) n, S g)) (fun c n g => Ok (toy_rows, S g)) (fun df n g => (repeat df n, S g)).
Definition first_label (X : mat NumX) (y : list string) : res (vec NumX -> res string) := match y with [] => Err ValueError | c :: _ => Ok (fun _ => Ok c) end.
Definition toy_ens : list (string * family toy_rand) :=
  [("a", mkFamily (fun p => dret toy_rand (equicorr p (nlit 6 1))) false); ("b", mkFamily (fun p => dret toy_rand (ar1 p (nlit 7 1))) false)].
Example C101_protocols_complete : exists L results results' g g', lawful L /\
  leave_one_ensemble_out L 1 true toy_rand toy_ens 15 20 30 3 LogLikelihood 0%nat = Ok (results, g) /\
  leave_one_family_out_trained L 1 true toy_rand first_label toy_ens 15 20 30 3 5 LogLikelihood 0%nat = Ok (results', g') /\
  map fst results = ["a"; "b"] /\ map fst results' = ["a"; "b"].
Proof.
  destruct lawful_satisfiable as (L & HL). exists L.
  destruct (C101_completes L 1 true toy_rand first_label toy_ens LogLikelihood (fun rows => rows = toy_rows)) with (p := 15%nat) (n_train := 20%nat) (n_test := 30%nat) (trials := 3%nat) (n_problems := 5%nat) (g := 0%nat)
    as [(r1 & g1 & E1) (r2 & g2 & E2)].
  - intros k g Hk. cbn. lia.
  - intros nm fam [Hi|[Hi|[]]]; injection Hi as <- <-; intros p g; cbn; (eexists; exists g; split; [reflexivity|]); intros n g'; exists toy_rows, (S g'); auto.
  - intros tr te -> ->. unfold trial_scores, toy_rows. apply mapM_exists. intros k Hk. destruct (toy_pd L k HL Hk) as (A & -> & HA). cbn [bind].
    destruct (loglik_ok L 1 A toy_train None HL (le_n 1) ltac:(discriminate) HA) as (s & Es). exists (est_name k, s).
    change (bind (or_minus_inf (assess L LogLikelihood (fm 1 1 A) (Some (map (fv 1) toy_train)) None)) (fun s => Ok (est_name k, s)) = Ok (est_name k, s)). now rewrite Es.
  - intros tr ->. destruct (C73_features L 1 toy_train HL (le_n 1) ltac:(discriminate)) as (f & _ & _ & _ & Ef & _). exists f. exact Ef.
  - intros X [|c y] Hy; [contradiction|]. eexists. split; [reflexivity|]. intros x. exists c. split; [reflexivity|now left].
  - intros X clf H. discriminate H.
  - repeat constructor; cbn; intuition discriminate.
  - cbn. lia.
  - lia.
  - lia.
  - exists r1, r2, g1, g2. split; [exact HL|]. split; [exact E1|]. split; [exact E2|].
    split; [apply (C101_leave_one_ensemble_out _ _ _ _ _ _ _ _ _ _ _ _ _ E1)|apply (C101_leave_one_family_out _ _ _ _ _ _ _ _ _ _ _ _ _ _ _ E2)].
Qed.

(** ** The report *)
Local Open Scope R_scope.
Lemma f2_len {A B} (P : A -> B -> Prop) l l' : Forall2 P l l' -> length l = length l'. Proof. induction 1; simpl; auto. Qed.
Definition mean_list (l : list R) : R := fold_right Rplus 0 l / INR (length l).
Lemma fold_tot (f : string * lofo (N := NumX) -> xreal) results rs : Forall2 (fun e x => f e = Fin x) results rs ->
  forall t, fold_left (fun t r => @nadd NumX t (f r)) results (Fin t) = Fin (t + fold_right Rplus 0 rs).
Proof.
  induction 1 as [|e x l rs E _ IH]; intros t; cbn [fold_left fold_right]; [f_equal; lra|]. rewrite E. cbn [NumX nadd xadd]. rewrite IH. f_equal. lra.
Qed.
(** The report has one line per family, in order; the recommender is said to win exactly when its mean rank is at most that of the fixed
    estimator (so it wins ties); the last line shows the means over the families.  An empty report raises ZeroDivisionError. *)
Theorem C101_report (results : list (string * lofo (N := NumX))) rs fs :
  Forall2 (fun (e : string * lofo (N := NumX)) x => l_rank_recommender (snd e) = Fin x) results rs -> Forall2 (fun (e : string * lofo (N := NumX)) x => l_rank_best_fixed (snd e) = Fin x) results fs ->
  (results = [] -> report results = Err ZeroDivisionError) /\
  (results <> [] -> exists lines, report results = Ok (lines, Fin (mean_list rs), Fin (mean_list fs)) /\ length lines = length results /\
     forall i held r x y, nth_error results i = Some (held, r) -> nth_error rs i = Some x -> nth_error fs i = Some y ->
       nth_error lines i = Some (held, (Fin x : NumX), (Fin y : NumX), if Rle_dec x y then "rec" else "fix")).
Proof.
  intros HR HF. split.
  - intros ->. unfold report. cbn [length]. unfold py_div. cbn. unfold Reqb, Rleb. destruct (Req_EM_T 0 0), (Rle_dec 0 0); try lra. reflexivity.
  - intros Hne. unfold report.
    set (lines := map (report_line (N := NumX)) results).
    assert (T1 := fold_tot (fun e => l_rank_recommender (snd e)) results rs HR 0). assert (T2 := fold_tot (fun e => l_rank_best_fixed (snd e)) results fs HF 0).
    assert (L1 := f2_len _ _ _ HR). assert (L2 := f2_len _ _ _ HF).
    assert (Hp : (0 < length results)%nat) by (destruct results; [contradiction|simpl; lia]). destruct (nofn_pos (length results) Hp) as [EN PN].
    exists lines. split; [|split; [apply map_length|]].
    + assert (PD : forall t, py_div (N := NumX) (Fin t) (nofn (length results)) = Ok (Fin (t / INR (length results)))).
      { intros t. rewrite EN. unfold py_div. cbn. unfold Reqb, Rleb. destruct (Req_EM_T (INR (length results)) 0); [lra|]. destruct (Rle_dec (INR (length results)) 0); [lra|]. reflexivity. }
      change (@n0 NumX) with (Fin 0). rewrite T1, T2, !PD. cbn [bind]. unfold mean_list. rewrite <- L1, <- L2, !Rplus_0_l. reflexivity.
    + intros i held r x y Hi Hx Hy. unfold lines. rewrite nth_error_map, Hi. cbn [option_map]. unfold report_line. cbn [fst snd].
      assert (NR : forall (P : string * lofo (N := NumX) -> R -> Prop) l l' i e v, Forall2 P l l' -> nth_error l i = Some e -> nth_error l' i = Some v -> P e v).
      { clear. intros P l l' i e v H. revert i. induction H as [|a b l l' Hab _ IH]; intros [|i] H1 H2; simpl in *; try discriminate; [congruence|eauto]. }
      assert (X := NR _ _ _ _ _ _ HR Hi Hx). assert (Y := NR _ _ _ _ _ _ HF Hi Hy). cbn [snd] in X, Y. rewrite X, Y.
      cbn [NumX nleb xleb]. unfold Rleb. destruct (Rle_dec x y); reflexivity.
Qed.
(** So a recommender that wins in every family has a mean rank at most that of the fixed estimators. *)
Corollary C101_report_wins rs fs : Forall2 Rle rs fs -> rs <> [] -> mean_list rs <= mean_list fs.
Proof.
  intros H Hne. unfold mean_list. rewrite (f2_len _ _ _ H). assert (P : 0 < INR (length fs)).
  { apply lt_0_INR. rewrite <- (f2_len _ _ _ H). destruct rs; [contradiction|simpl; lia]. }
  unfold Rdiv. apply Rmult_le_compat_r; [left; now apply Rinv_0_lt_compat|]. clear -H. induction H; simpl; lra.
Qed.

(** ** The exported tables *)
Lemma int_fraction c : 0 <= c -> exists z, py_int (N := NumX) (Fin c) = Ok z /\ IZR z <= c < IZR z + 1.
Proof.
  intros H. unfold py_int. change (@nltb NumX (Fin c) n0) with (Rltb c 0). unfold Rltb. destruct (Rlt_dec c 0); [lra|].
  change (@nceil NumX (@nopp NumX (Fin c))) with (Ok (1 - up (- - c))%Z : res Z). cbn [bind]. eexists. split; [reflexivity|]. rewrite Ropp_involutive.
  destruct (archimed c) as [A1 A2]. rewrite opp_IZR, minus_IZR. lra.
Qed.
(** A node of a fitted tree holds the fraction of each class there (scikit-learn 1.3 and later).  The export truncates the fractions to
    integers: a node keeps the class it holds only if it holds no other, and becomes all zeros otherwise. *)
Theorem C101_export_keeps_only_pure_nodes (mean std : vec NumX) (value : list (list R)) m s : mapM py_round6 mean = Ok m -> mapM py_round6 std = Ok s ->
  (forall node, In node value -> (forall c, In c node -> 0 <= c <= 1)) ->
  export mean std (map (map (fun c => Fin c : NumX)) value) = Ok (m, s, map (map (fun c => if Req_EM_T c 1 then 1%Z else 0%Z)) value).
Proof.
  intros Hm Hs HV. unfold export. rewrite Hm. cbn [bind]. rewrite Hs. cbn [bind].
  assert (G : forall node : list R, (forall c, In c node -> 0 <= c <= 1) -> mapM (py_int (N := NumX)) (map (fun c => Fin c : NumX) node) = Ok (map (fun c => if Req_EM_T c 1 then 1%Z else 0%Z) node)).
  { induction node as [|c node IH]; intros H; [reflexivity|]. cbn [map mapM]. assert (Hc := H c (or_introl eq_refl)). destruct (int_fraction c) as (z & Ez & Hz); [lra|].
    assert (EZ : z = if Req_EM_T c 1 then 1%Z else 0%Z).
    { destruct (Req_EM_T c 1) as [->|Hn].
      - assert (z < 2)%Z by (apply lt_IZR; lra). assert (0 < z)%Z by (apply lt_IZR; lra). lia.
      - assert (z < 1)%Z by (apply lt_IZR; lra). assert (-1 < z)%Z by (apply lt_IZR; lra). lia. }
    match goal with |- bind ?x _ = _ => assert (Ex : x = Ok z) by exact Ez; rewrite Ex end. cbn [bind]. rewrite IH by (intros; apply H; now right). cbn [bind]. now rewrite EZ. }
  assert (G2 : mapM (mapM (py_int (N := NumX))) (map (map (fun c => Fin c : NumX)) value) = Ok (map (map (fun c => if Req_EM_T c 1 then 1%Z else 0%Z)) value)).
  { clear -HV G. induction value as [|node value IH]; [reflexivity|]. cbn [map mapM]. rewrite G by (apply HV; now left). cbn [bind]. rewrite IH by (intros nd Hnd; apply HV; now right). reflexivity. }
  match goal with |- bind ?x _ = _ => assert (Ex : x = Ok (map (map (fun c => if Req_EM_T c 1 then 1%Z else 0%Z)) value)) by exact G2; rewrite Ex end. reflexivity.
Qed.
Lemma round6_close v : exists r, py_round6 (N := NumX) (Fin v) = Ok (Fin r) /\ Rabs (r - v) <= / 2000000.
Proof.
  unfold py_round6. assert (E5 : @nlit NumX 5 1 = Fin (1/2)) by (rewrite nlit_fin; f_equal; cbn; lra). rewrite E5. cbn [NumX nceil nsub nmul nofZ xceil xsub xmul ndiv xdiv bind]. unfold Reqb. destruct (Req_EM_T 1000000 0); [lra|].
  eexists. split; [reflexivity|]. destruct (archimed (- (v * 1000000 - 1 / 2))) as [A1 A2]. rewrite minus_IZR. set (u := IZR (up (- (v * 1000000 - 1 / 2)))) in *.
  apply Rabs_le. lra.
Qed.
(** The floor of 1e-9 that keeps the standard deviation of a constant feature from being zero does not survive the export: it is written as 0
    (and the frozen model then divides by zero). *)
Theorem C101_export_loses_the_floor (X : mat NumX) j c : (j < ncols X)%nat -> (forall row, In row X -> vget row j = Fin c) ->
  vget (col_stds X) j = Fin (/ 1000000000) /\ py_round6 (N := NumX) (vget (col_stds X) j) = Ok (Fin 0).
Proof.
  intros Hj HC.
  assert (EL : @nlit NumX 1 9 = Fin (/ 1000000000)) by (rewrite nlit_fin; f_equal; cbn; lra).
  assert (HX : X <> []) by (intros ->; cbn in Hj; lia).
  assert (EC : mcol X j = repeat (Fin c : NumX) (length X)).
  { unfold mcol. clear -HC. induction X as [|row X IH]; [reflexivity|]. cbn [map repeat length]. f_equal; [apply HC; now left|apply IH; intros; apply HC; now right]. }
  assert (HS : forall x n, vsum (N := NumX) (repeat (Fin x : NumX) n) = Fin (INR n * x)).
  { intros x n. unfold vsum. assert (G : forall n t, fold_left (@nadd NumX) (repeat (Fin x : NumX) n) (Fin t) = Fin (t + INR n * x)).
    { clear. induction n as [|n IH]; intros t; cbn [repeat fold_left]; [f_equal; simpl; lra|]. cbn [NumX nadd xadd]. rewrite IH, S_INR. f_equal. lra. }
    change (@n0 NumX) with (Fin 0). rewrite G. f_equal. lra. }
  assert (Hp : (0 < length X)%nat) by (destruct X; [contradiction|simpl; lia]).
  assert (VM : forall x, vmean (N := NumX) (repeat (Fin x : NumX) (length X)) = Fin x).
  { intros x. unfold vmean. rewrite HS, repeat_length. destruct (nofn_pos (length X) Hp) as [-> PN]. cbn. unfold Reqb. destruct Req_EM_T as [e|ne]; [exfalso; revert e; apply Rgt_not_eq; exact PN|]. apply (f_equal Fin). field. exact ne. }
  assert (E1 : vget (col_stds X) j = Fin (/ 1000000000)).
  { unfold col_stds, vget. rewrite nth_tab by exact Hj. rewrite EC, VM, EL.
    assert (EM : forall n, map (fun x : NumX => nsq (nsub x (Fin c))) (repeat (Fin c : NumX) n) = repeat (Fin 0 : NumX) n).
    { clear. induction n as [|n IH]; [reflexivity|]. cbn [repeat map]. rewrite IH. f_equal. unfold nsq. cbn. f_equal. ring. }
    rewrite EM, VM. cbn. unfold xsqrt. unfold Rltb. destruct (Rlt_dec 0 0); [lra|]. rewrite sqrt_0. cbn. f_equal. lra. }
  split; [exact E1|]. rewrite E1. unfold py_round6. assert (E5 : @nlit NumX 5 1 = Fin (1/2)) by (rewrite nlit_fin; f_equal; cbn; lra). rewrite E5. cbn [NumX nceil nsub nmul nofZ xceil xsub xmul ndiv xdiv bind]. unfold Reqb. destruct (Req_EM_T 1000000 0); [lra|].
  assert (EU : up (- (/ 1000000000 * 1000000 - 1 / 2)) = 1%Z) by (symmetry; apply tech_up; lra).
  rewrite EU. apply (f_equal (fun r => Ok (Fin r))). change (1 - 1)%Z with 0%Z. lra.
Qed.

(** ** The scenarios of the bake-off *)
Section Scenarios.
Context {N : Num} (R : Rand N).
Lemma drawn_ok nm cov n n_test heavy g sc g' : drawn R nm cov n n_test heavy g = Ok (sc, g') ->
  exists train test ga gb gc, sc = (nm, train, test, cov) /\ TrainModel.sample R cov n heavy ga = Ok (train, gb) /\ TrainModel.sample R cov n_test heavy gb = Ok (test, gc).
Proof.
  unfold drawn. intros E. apply dbind_ok in E as (tr & g1 & E1 & E). apply dbind_ok in E as (te & g2 & E2 & E). apply dret_ok in E as [-> _].
  exists tr, te, g, g1, g2. auto.
Qed.
Lemma overwrite_length mask noise (tr : mat N) : length (overwrite mask noise tr) = length tr.
Proof. revert mask noise. induction tr as [|row tr IH]; intros [|[] mask] [|z noise]; simpl; auto. Qed.
Lemma overwrite_keeps mask noise (tr : mat N) i : nth_error mask i = Some false -> nth_error (overwrite mask noise tr) i = nth_error tr i.
Proof.
  revert mask noise i. induction tr as [|row tr IH]; intros [|[] mask] noise i H; destruct i as [|i]; simpl in *; try discriminate; auto;
    destruct noise; simpl; auto.
Qed.
(** [build_scenarios]: seven scenarios with distinct names; in each the test rows are [n_test] draws from the covariance the scenario calls the
    truth; the training rows are [n] draws from it too, except that high_dim_low_n has 60 of them, regime_change has n/2 from another covariance
    followed by n/2 from the truth, and in contaminated some of the rows are replaced (their number does not change). *)
Theorem C101_scenarios d n n_test g scs g' : build_scenarios R d n n_test g = Ok (scs, g') ->
  map (fun sc : scenario (N := N) => fst (fst (fst sc))) scs =
    ["equicorr"; "one_factor"; "ar1_toeplitz"; "high_dim_low_n"; "regime_change"; "contaminated"; "heavy_tailed"] /\
  forall nm train test truth, In (nm, train, test, truth) scs -> exists heavy ga gb,
    TrainModel.sample R truth n_test heavy ga = Ok (test, gb) /\ (heavy = true <-> nm = "heavy_tailed") /\
    ((nm <> "regime_change" -> exists drawn_rows gc gd,
        TrainModel.sample R truth (if String.eqb nm "high_dim_low_n" then 60 else n) heavy gc = Ok (drawn_rows, gd) /\ length train = length drawn_rows /\
        (nm <> "contaminated" -> train = drawn_rows)) /\
     (nm = "regime_change" -> exists before after old gc gd ge gf, TrainModel.sample R old (n / 2) false gc = Ok (before, gd) /\
        TrainModel.sample R truth (n / 2) false ge = Ok (after, gf) /\ train = before ++ after)).
Proof.
  unfold build_scenarios. intros E. apply dbind_ok in E as (cov1 & g1 & _ & E). apply dbind_ok in E as (s1 & g2 & E1 & E). apply dbind_ok in E as (s2 & g3 & E2 & E). apply dbind_ok in E as (s3 & g4 & E3 & E).
  apply dbind_ok in E as (covh & g5 & _ & E). apply dbind_ok in E as (s4 & g6 & E4 & E). apply dbind_ok in E as (ra & g7 & E5 & E). apply dbind_ok in E as (rb & g8 & E6 & E). apply dbind_ok in E as (rt & g9 & E7 & E).
  apply dbind_ok in E as (covc & g10 & _ & E). apply dbind_ok in E as (tr & g11 & E8 & E). apply dbind_ok in E as (u & g12 & _ & E). cbv zeta in E. apply dbind_ok in E as (z & g13 & _ & E).
  apply dbind_ok in E as (te & g14 & E9 & E). apply dbind_ok in E as (cov3 & g15 & _ & E). apply dbind_ok in E as (s7 & g16 & E10 & E). apply dret_ok in E as [-> _].
  apply drawn_ok in E1 as (tr1 & te1 & a1 & b1 & c1 & -> & A1 & B1). apply drawn_ok in E2 as (tr2 & te2 & a2 & b2 & c2 & -> & A2 & B2). apply drawn_ok in E3 as (tr3 & te3 & a3 & b3 & c3 & -> & A3 & B3).
  apply drawn_ok in E4 as (tr4 & te4 & a4 & b4 & c4 & -> & A4 & B4). apply drawn_ok in E10 as (tr7 & te7 & a7 & b7 & c7 & -> & A7 & B7).
  split; [reflexivity|]. intros nm train test truth Hi.
  destruct Hi as [Hi|[Hi|[Hi|[Hi|[Hi|[Hi|[Hi|[]]]]]]]]; injection Hi as <- <- <- <-.
  - exists false, b1, c1. split; [exact B1|]. split; [split; discriminate|]. split; [|discriminate]. intros _. exists tr1, a1, b1. auto.
  - exists false, b2, c2. split; [exact B2|]. split; [split; discriminate|]. split; [|discriminate]. intros _. exists tr2, a2, b2. auto.
  - exists false, b3, c3. split; [exact B3|]. split; [split; discriminate|]. split; [|discriminate]. intros _. exists tr3, a3, b3. auto.
  - exists false, b4, c4. split; [exact B4|]. split; [split; discriminate|]. split; [|discriminate]. intros _. exists tr4, a4, b4. auto.
  - exists false, g8, g9. split; [exact E7|]. split; [split; discriminate|]. split; [intros H; contradiction|]. intros _. exists ra, rb, (equicorr d (nlit 2 1)), g6, g7, g7, g8. auto.
  - exists false, g13, g14. split; [exact E9|]. split; [split; discriminate|]. split; [|discriminate]. intros _. exists tr, g10, g11. split; [exact E8|]. split; [apply overwrite_length|]. intros H; contradiction.
  - exists true, b7, c7. split; [exact B7|]. split; [split; reflexivity|]. split; [|discriminate]. intros _. exists tr7, a7, b7. auto.
Qed.
End Scenarios.

(** * C103: the power experiments (research/metric_power.py): what the numbers they return count *)
From Coq Require Import ZArith Bool String List Lia Arith Permutation DecimalPos DecimalZ DecimalString.
From Verif Require Import Num Numpy PyVal LinalgModel BaseModel Estimators AssessModel ResearchModel MetricModel SpikedModel ListLemmas TrainModel PowerModel
  Props_Train.
Import ListNotations.
Local Open Scope string_scope.
Local Open Scope list_scope.

(** The judge gives the genuinely better estimate the strictly higher score. *)
Definition wins {N : Num} (judge : mat N -> res N) (c : contest (N := N)) : bool :=
  match judge (c_good c), judge (c_bad c) with Ok x, Ok y => nltb y x | _, _ => false end.
(** The share of the elements of a list with a property. *)
Definition share {N : Num} {A} (f : A -> bool) (l : list A) : N := ndiv (nofn (length (filter f l))) (nofn (length l)).
(** both scores exist *)
Definition scored {N : Num} (judge : mat N -> res N) (c : contest (N := N)) : Prop := exists x y, judge (c_good c) = Ok x /\ judge (c_bad c) = Ok y.

Section Lemmas.
Context {N : Num}.
Lemma agrees_wins (judge : mat N -> res N) (c : contest (N := N)) b : agrees judge (c_good c) (c_bad c) = Ok b -> b = wins judge c /\ scored judge c.
Proof.
  unfold agrees, wins, scored. destruct (judge (c_good c)) as [x|]; [|discriminate]. destruct (judge (c_bad c)) as [y|]; [|discriminate]. cbn [bind].
  intros E. injection E as <-. eauto.
Qed.
Lemma keyed_wins {K} (k : K) (judge : mat N -> res N) (c : contest (N := N)) v : keyed_verdict k judge c = Ok v -> v = (k, wins judge c) /\ scored judge c.
Proof. unfold keyed_verdict. intros E. apply bind_ok in E as (b & E1 & E2). injection E2 as <-. apply agrees_wins in E1 as [-> H]. auto. Qed.
Lemma mapM_f2 {A B} (f : A -> res B) l bs : mapM f l = Ok bs -> Forall2 (fun a b => f a = Ok b) l bs.
Proof. revert bs. induction l as [|a l IH]; intros bs E; cbn [mapM] in E; [injection E as <-; constructor|]. apply bind_ok in E as (b & E1 & E). apply bind_ok in E as (bs' & E2 & E). injection E as <-. constructor; auto. Qed.
Lemma mapM_keyed {X K} (key : X -> K) (judge : X -> mat N -> res N) (c : contest (N := N)) l vs :
  mapM (fun x => keyed_verdict (key x) (judge x) c) l = Ok vs -> vs = map (fun x => (key x, wins (judge x) c)) l /\ Forall (fun x => scored (judge x) c) l.
Proof.
  revert vs. induction l as [|x l IH]; intros vs E; cbn [mapM] in E; [injection E as <-; split; [reflexivity|constructor]|].
  apply bind_ok in E as (v & E1 & E). apply bind_ok in E as (vs' & E2 & E). injection E as <-. apply keyed_wins in E1 as [-> S1]. destruct (IH _ E2) as [-> S2]. split; [reflexivity|]. constructor; auto.
Qed.
Lemma py_div_ok (a b q : N) : py_div a b = Ok q -> q = ndiv a b.
Proof. unfold py_div. destruct (_ && _); [discriminate|]. intros E. now injection E as <-. Qed.
(** every element comes with its explanation *)
Lemma explain {A O} (Q : O -> A -> Prop) l : (forall a, In a l -> exists o, Q o a) -> exists os, Forall2 Q os l.
Proof.
  induction l as [|a l IH]; intros H; [exists []; constructor|]. destruct (H a (or_introl eq_refl)) as (o & Ho). destruct IH as (os & Hos); [intros; apply H; now right|]. exists (o :: os). now constructor.
Qed.
Lemma f2_map {A O} (f : O -> A) os l : Forall2 (fun o a => a = f o) os l -> l = map f os.
Proof. induction 1; cbn; congruence. Qed.
Lemma f2_imp {A B} (P Q : A -> B -> Prop) l l' : (forall a b, P a b -> Q a b) -> Forall2 P l l' -> Forall2 Q l l'.
Proof. intros H. induction 1; constructor; auto. Qed.
Lemma f2_left {A B} (P : A -> B -> Prop) (Q : A -> Prop) l l' : (forall a b, P a b -> Q a) -> Forall2 P l l' -> Forall Q l.
Proof. intros H. induction 1; constructor; eauto. Qed.
Lemma f2_length {A B} (P : A -> B -> Prop) l l' : Forall2 P l l' -> length l = length l'.
Proof. induction 1; cbn; auto. Qed.
Lemma dtimes_forall {R : Rand N} {A} n (m : D R A) g l g' : dtimes R n m g = Ok (l, g') -> length l = n /\ forall a, In a l -> exists g0 g1, m g0 = Ok (a, g1).
Proof. apply dtimes_ok. Qed.

(** *** Counting *)
Lemma tally_app {K} (eqb : K -> K -> bool) k l l' : tally eqb k (l ++ l') = tally eqb k l + tally eqb k l'.
Proof. unfold tally. now rewrite filter_app, app_length. Qed.
Lemma tally_absent {K X} (eqb : K -> K -> bool) (He : forall a b, eqb a b = true <-> a = b) (key : X -> K) (w : X -> bool) l k :
  ~ In k (map key l) -> tally eqb k (map (fun x => (key x, w x)) l) = 0.
Proof.
  unfold tally. induction l as [|x l IH]; intros H; [reflexivity|]. cbn [map filter fst snd]. destruct (eqb k (key x)) eqn:E.
  - apply He in E. exfalso. apply H. left. auto.
  - cbn [andb]. apply IH. intros Hi. apply H. now right.
Qed.
Lemma tally_one {K X} (eqb : K -> K -> bool) (He : forall a b, eqb a b = true <-> a = b) (key : X -> K) (w : X -> bool) l x :
  NoDup (map key l) -> In x l -> tally eqb (key x) (map (fun x => (key x, w x)) l) = if w x then 1 else 0.
Proof.
  induction l as [|y l IH]; intros HN Hx; [contradiction|]. cbn [map] in HN |- *. apply NoDup_cons_iff in HN as [H1 H2].
  assert (EQ : eqb (key x) (key x) = true) by (apply He; reflexivity).
  destruct Hx as [->|Hx].
  - change (tally eqb (key x) ((key x, w x) :: ?l)) with (tally eqb (key x) ([(key x, w x)] ++ l)). cbn [app].
    assert (T : tally eqb (key x) ((key x, w x) :: map (fun x => (key x, w x)) l) = (if w x then 1 else 0) + tally eqb (key x) (map (fun x => (key x, w x)) l)).
    { unfold tally. cbn [filter fst snd]. rewrite EQ. cbn [andb]. destruct (w x); reflexivity. }
    rewrite T, tally_absent by auto. lia.
  - assert (T : tally eqb (key x) ((key y, w y) :: map (fun x => (key x, w x)) l) = tally eqb (key x) (map (fun x => (key x, w x)) l)).
    { unfold tally. cbn [filter fst snd]. destruct (eqb (key x) (key y)) eqn:E; [|reflexivity]. apply He in E. exfalso. apply H1. rewrite <- E. now apply in_map. }
    rewrite T. now apply IH.
Qed.
(** one verdict per key and trial: the count is the number of trials won *)
Lemma tally_trials {K X O} (eqb : K -> K -> bool) (He : forall a b, eqb a b = true <-> a = b) (key : X -> K) (w : O -> X -> bool) l x os :
  NoDup (map key l) -> In x l -> tally eqb (key x) (concat (map (fun o => map (fun x => (key x, w o x)) l) os)) = length (filter (fun o => w o x) os).
Proof.
  intros HN Hx. induction os as [|o os IH]; [reflexivity|]. cbn [map concat filter]. rewrite tally_app, (tally_one eqb He key (w o)) by auto. rewrite IH. destruct (w o x); reflexivity.
Qed.
(** The table of powers, when no key is repeated *)
Lemma powers_share {K X O} (eqb : K -> K -> bool) (He : forall a b, eqb a b = true <-> a = b) (key : X -> K) (w : O -> X -> bool) l os total (pw : list (K * N)) :
  NoDup (map key l) -> length os = total -> powers eqb (map key l) (concat (map (fun o => map (fun x => (key x, w o x)) l) os)) total = Ok pw ->
  pw = map (fun x => (key x, share (fun o => w o x) os)) l.
Proof.
  intros HN Hl E. unfold powers in E. apply mapM_f2 in E. rewrite <- (map_id pw). set (vs := concat _) in E. assert (G : forall x, In x l -> tally eqb (key x) vs = length (filter (fun o => w o x) os)) by (intros; now apply tally_trials).
  clearbody vs. clear HN. revert pw E. induction l as [|x l IH]; intros pw E; inversion E as [|? ? ? ? H1 H2]; subst; [reflexivity|]. cbn [map]. f_equal.
  - apply bind_ok in H1 as (q & E1 & E2). injection E2 as <-. apply py_div_ok in E1. rewrite E1, (G x) by now left. reflexivity.
  - apply IH; [|exact H2]. intros; apply G; now right.
Qed.
Lemma string_eqb_eq a b : String.eqb a b = true <-> a = b.
Proof. apply String.eqb_eq. Qed.
Lemma optnat_eqb_eq a b : optnat_eqb a b = true <-> a = b.
Proof. destruct a, b; cbn; try rewrite Nat.eqb_eq; split; congruence. Qed.
End Lemmas.

(** ** Names *)
Lemma show_int_inj a b : show_int a = show_int b -> a = b.
Proof.
  unfold show_int. intros E. assert (H : forall z, DecimalString.NilZero.int_of_string (DecimalString.NilZero.string_of_int (Z.to_int z)) = Some (Z.to_int z)).
  { intros z. apply DecimalString.NilZero.isi; destruct z as [|q|q]; cbn [Z.to_int]; try discriminate.
    all: intros X; injection X as X; revert X; apply DecimalPos.Unsigned.to_uint_nonnil. }
  assert (X : Some (Z.to_int a) = Some (Z.to_int b)) by (rewrite <- !H; now rewrite E). injection X as X. apply (f_equal Z.of_int) in X. now rewrite !DecimalZ.of_to in X.
Qed.
Lemma append_inj (s a b : string) : (s ++ a)%string = (s ++ b)%string -> a = b.
Proof. induction s as [|c s IH]; cbn; intros E; [exact E|]. injection E as E. auto. Qed.
Lemma nodup_map {A B} (f : A -> B) l : (forall x y, f x = f y -> x = y) -> NoDup l -> NoDup (map f l).
Proof. intros H. induction 1 as [|x l Hx HN IH]; cbn; constructor; auto. intros Hi. apply in_map_iff in Hi as (y & E & Hy). apply H in E. now subst. Qed.
Lemma proj_key_inj a b : proj_key a = proj_key b -> a = b.
Proof. intros E. apply append_inj, show_int_inj in E. lia. Qed.
Lemma pll_key_inj a b : pll_key a = pll_key b -> a = b.
Proof. intros E. now apply append_inj, show_int_inj in E. Qed.

Section Experiments.
Context {N : Num} (L : LinAlg N) (log exp : N -> N) (np_qr : mat N -> res (mat N)) (repr : N -> string) (P : PowerRand N).
Notation mat := (mat N).
Notation vec := (vec N).
Notation R := (pr_rand P).
Notation contest := (contest (N := N)).

(** What a trial drew: the two estimates (the better one first) with the truth, the test rows, the directions of [run] and the subspaces of
    every projection judge (None is the full dimension). *)
Record outcome := mkOutcome { o_c : contest; o_X : mat; o_dirs : mat; o_subs : option nat -> list mat }.

Lemma experiment {K O J} (eqb : K -> K -> bool) (He : forall a b, eqb a b = true <-> a = b) (key : J -> K) (w : O -> J -> bool) (judges : list J) (Ex : O -> Prop)
  (ts : list (list (K * bool))) (pw : list (K * N)) :
  (forall t, In t ts -> exists o, Ex o /\ t = map (fun x => (key x, w o x)) judges) -> NoDup (map key judges) ->
  powers eqb (map key judges) (concat ts) (length ts) = Ok pw ->
  exists os, length os = length ts /\ Forall Ex os /\ pw = map (fun x => (key x, share (fun o => w o x) os)) judges.
Proof.
  intros Ht HN E. destruct (explain (fun o t => Ex o /\ t = map (fun x => (key x, w o x)) judges) ts Ht) as (os & Hos). exists os.
  assert (Hl : length os = length ts) by (eapply f2_length, Hos). split; [exact Hl|]. split; [eapply f2_left; [|exact Hos]; intros o t [H _]; exact H|].
  assert (ET : ts = map (fun o => map (fun x => (key x, w o x)) judges) os) by (apply f2_map; eapply f2_imp; [|exact Hos]; intros o t [_ H]; exact H).
  rewrite ET, map_length in E. exact (powers_share eqb He key w judges os (length os) pw HN eq_refl E).
Qed.
Lemma gamma_key_inj a b : gamma_key repr a = gamma_key repr b -> repr a = repr b.
Proof. apply append_inj. Qed.

(** *** schur_power *)
Theorem C103_schur_power p g rho err_good err_bad sig_cross gammas n_test trials s pw s' :
  schur_power L repr P p g rho err_good err_bad sig_cross gammas n_test trials s = Ok (pw, s') -> NoDup (map repr gammas) ->
  exists os, length os = trials /\
    Forall (fun o => exists s0 s1 s2, group_contest L P p g (p / g) rho err_good err_bad sig_cross s0 = Ok (o_c o, s1) /\
                                      r_mvn R (c_truth (o_c o)) n_test s1 = Ok (o_X o, s2)) os /\
    pw = ("full", share (fun o => wins (fun cov => mp_loglik L cov (o_X o)) (o_c o)) os)
      :: map (fun x => (gamma_key repr x, share (fun o => wins (fun cov => mp_schur_loglik L cov (o_X o) (groups g (p / g)) x) (o_c o)) os)) gammas.
Proof.
  intros E HN. unfold schur_power in E. apply dbind_ok in E as (gs & s1 & E0 & E). apply dlift_ok in E0 as [E0 ->]. unfold group_size in E0. destruct (Nat.eqb g 0); [discriminate|]. injection E0 as <-.
  apply dbind_ok in E as (ts & s1 & E1 & E). apply dlift_ok in E as [E _]. apply dtimes_ok in E1 as [Hl Ht]. rewrite <- Hl in E.
  set (judges := ("full", fun (o : outcome) cov => mp_loglik L cov (o_X o)) :: map (fun x => (gamma_key repr x, fun (o : outcome) cov => mp_schur_loglik L cov (o_X o) (groups g (p / g)) x)) gammas).
  replace ("full" :: map (gamma_key repr) gammas) with (map fst judges) in E by (unfold judges; cbn [map fst]; rewrite map_map; reflexivity).
  destruct (experiment String.eqb string_eqb_eq (fun j : string * (outcome -> mat -> res N) => fst j) (fun o j => wins (snd j o) (o_c o)) judges
    (fun o => exists s0 s1 s2, group_contest L P p g (p / g) rho err_good err_bad sig_cross s0 = Ok (o_c o, s1) /\ r_mvn R (c_truth (o_c o)) n_test s1 = Ok (o_X o, s2)) ts pw) as (os & H1 & H2 & H3).
  - intros t Hi. destruct (Ht t Hi) as (g0 & g1 & T). unfold schur_trial in T. apply dbind_ok in T as (c & h1 & T1 & T). apply dbind_ok in T as (X & h2 & T2 & T).
    apply dbind_ok in T as (v & h3 & T3 & T). apply dlift_ok in T3 as [T3 ->]. apply keyed_wins in T3 as [-> _]. apply dbind_ok in T as (vs & h4 & T4 & T). apply dlift_ok in T4 as [T4 ->].
    apply dret_ok in T as [-> _]. apply mapM_keyed in T4 as [-> _]. exists (mkOutcome c X [] (fun _ => [])). split; [cbn [o_c o_X]; do 3 eexists; split; [exact T1|exact T2]|].
    unfold judges. cbn [map fst snd o_X o_c]. rewrite map_map. reflexivity.
  - unfold judges. cbn [map fst]. constructor.
    + rewrite map_map. cbn [fst]. intros Hi. apply in_map_iff in Hi as (x & Ex & _). discriminate.
    + rewrite map_map. cbn [fst]. clear -HN. induction gammas as [|x l IH]; cbn; constructor; inversion HN as [|? ? H1 H2]; subst; auto.
      intros Hi. apply in_map_iff in Hi as (y & Ey & Hy). apply H1. apply gamma_key_inj in Ey. rewrite <- Ey. now apply in_map.
  - exact E.
  - exists os. split; [now rewrite H1|]. split; [exact H2|]. rewrite H3. unfold judges. cbn [map fst snd]. rewrite map_map. reflexivity.
Qed.

(** *** pseudo_likelihood_power *)
(** The contest of one trial: noisy tails in the regime "noisy_tail", perturbations of a factor model in any other. *)
Definition pll_contest (regime : string) (p : nat) (lam_bulk : vec) (sig_good sig_bad sig_tail tail_level eps_good eps_bad : N) : D R contest :=
  if String.eqb regime "noisy_tail" then tail_contest exp np_qr P p lam_bulk (p - length lam_bulk) tail_level sig_good sig_bad sig_tail
  else perturbed_contest L P p eps_good eps_bad.
Theorem C103_pseudo_likelihood_power regime block_sizes p0 bulk sig_good sig_bad sig_tail tail_level eps_good eps_bad n_test trials s pw s' :
  pseudo_likelihood_power L exp np_qr P regime block_sizes p0 bulk sig_good sig_bad sig_tail tail_level eps_good eps_bad n_test trials s = Ok (pw, s') ->
  let p := pll_dim regime p0 in let bs := pll_sizes p block_sizes in NoDup bs ->
  bulk <= p /\
  exists lam_bulk os, lam_bulk = fst (r_uniform R (nofZ 2) (nofZ 6) bulk s) /\ length os = trials /\
    Forall (fun o => exists s0 s1 s2, pll_contest regime p lam_bulk sig_good sig_bad sig_tail tail_level eps_good eps_bad s0 = Ok (o_c o, s1) /\
                                      r_mvn R (c_truth (o_c o)) n_test s1 = Ok (o_X o, s2)) os /\
    pw = ("frobenius", share (fun o => wins (fun cov => mp_frobenius cov (o_X o)) (o_c o)) os)
      :: ("full_loglik", share (fun o => wins (fun cov => mp_loglik L cov (o_X o)) (o_c o)) os)
      :: map (fun b => (pll_key b, share (fun o => wins (fun cov => mp_block_pseudo_loglik L cov (o_X o) b) (o_c o)) os)) bs.
Proof.
  intros E p bs HN. unfold pseudo_likelihood_power in E. fold p in E. cbv zeta in E. fold bs in E. apply dbind_ok in E as (lam & s1 & E0 & E).
  unfold draw_bulk in E0. apply dbind_ok in E0 as (l & s2 & D1 & D2). unfold ddraw in D1. injection D1 as D1. destruct (Nat.ltb_spec p bulk); [discriminate|]. apply dret_ok in D2 as [-> ->]. split; [assumption|].
  apply dbind_ok in E as (ts & s3 & E1 & E). apply dlift_ok in E as [E _]. apply dtimes_ok in E1 as [Hl Ht]. rewrite <- Hl in E.
  set (judges := ("frobenius", fun (o : outcome) cov => mp_frobenius cov (o_X o)) :: ("full_loglik", fun (o : outcome) cov => mp_loglik L cov (o_X o)) ::
    map (fun b => (pll_key b, fun (o : outcome) cov => mp_block_pseudo_loglik L cov (o_X o) b)) bs).
  replace ("frobenius" :: "full_loglik" :: map pll_key bs) with (map fst judges) in E by (unfold judges; cbn [map fst]; rewrite map_map; reflexivity).
  destruct (experiment String.eqb string_eqb_eq (fun j : string * (outcome -> mat -> res N) => fst j) (fun o j => wins (snd j o) (o_c o)) judges
    (fun o => exists s0 s1 s2, pll_contest regime p l sig_good sig_bad sig_tail tail_level eps_good eps_bad s0 = Ok (o_c o, s1) /\ r_mvn R (c_truth (o_c o)) n_test s1 = Ok (o_X o, s2)) ts pw) as (os & H1 & H2 & H3).
  - intros t Hi. destruct (Ht t Hi) as (g0 & g1 & T). unfold pll_trial in T. apply dbind_ok in T as (c & h1 & T1 & T). apply dbind_ok in T as (X & h2 & T2 & T).
    apply dbind_ok in T as (v & h3 & T3 & T). apply dlift_ok in T3 as [T3 ->]. apply keyed_wins in T3 as [-> _].
    apply dbind_ok in T as (v & h4 & T4 & T). apply dlift_ok in T4 as [T4 ->]. apply keyed_wins in T4 as [-> _].
    apply dbind_ok in T as (vs & h5 & T5 & T). apply dlift_ok in T5 as [T5 ->]. apply dret_ok in T as [-> _]. apply mapM_keyed in T5 as [-> _].
    exists (mkOutcome c X [] (fun _ => [])). split; [cbn [o_c o_X]; do 3 eexists; split; [exact T1|exact T2]|]. unfold judges. cbn [map fst snd o_X o_c]. rewrite map_map. reflexivity.
  - unfold judges. cbn [map fst]. rewrite map_map. cbn [fst]. constructor; [|constructor].
    + cbn [In]. intros [Hx|Hi]; [discriminate|]. apply in_map_iff in Hi as (x & Ex & _). discriminate.
    + intros Hi. apply in_map_iff in Hi as (x & Ex & _). discriminate.
    + apply (nodup_map pll_key); [apply pll_key_inj|exact HN].
  - exact E.
  - exists l, os. split; [now rewrite D1|]. split; [now rewrite H1|]. split; [exact H2|]. rewrite H3. unfold judges. cbn [map fst snd]. rewrite map_map. reflexivity.
Qed.

(** a block size given twice (None is p) is judged twice per trial and divided once: its reported power is the share times the number of repetitions *)
Lemma tally_repeated (w : Z -> bool) (l : list Z) b : tally String.eqb (pll_key b) (map (fun b => (pll_key b, w b)) l) = if w b then count_occ Z.eq_dec l b else 0.
Proof.
  induction l as [|x l IH]; [now destruct (w b)|]. cbn [map count_occ]. change ((pll_key x, w x) :: ?r) with ([(pll_key x, w x)] ++ r). rewrite tally_app, IH. unfold tally. cbn [filter fst snd].
  destruct (Z.eq_dec x b) as [->|Hn].
  - rewrite String.eqb_refl. cbn [andb]. destruct (w b); reflexivity.
  - destruct (String.eqb_spec (pll_key b) (pll_key x)) as [E|E]; [apply pll_key_inj in E; congruence|]. cbn [andb length]. destruct (w b); reflexivity.
Qed.
Theorem C103_repeated_block_sizes regime block_sizes p0 bulk sig_good sig_bad sig_tail tail_level eps_good eps_bad n_test trials s pw s' b :
  pseudo_likelihood_power L exp np_qr P regime block_sizes p0 bulk sig_good sig_bad sig_tail tail_level eps_good eps_bad n_test trials s = Ok (pw, s') ->
  let p := pll_dim regime p0 in let bs := pll_sizes p block_sizes in In b bs ->
  exists os, length os = trials /\
    In (pll_key b, ndiv (nofn (count_occ Z.eq_dec bs b * length (filter (fun o => wins (fun cov => mp_block_pseudo_loglik L cov (o_X o) b) (o_c o)) os))) (nofn trials)) pw.
Proof.
  intros E p bs Hb. unfold pseudo_likelihood_power in E. fold p in E. cbv zeta in E. fold bs in E. apply dbind_ok in E as (lam & s1 & _ & E). apply dbind_ok in E as (ts & s3 & E1 & E). apply dlift_ok in E as [E _]. apply dtimes_ok in E1 as [Hl Ht].
  destruct (explain (fun o t => t = ("frobenius", wins (fun cov => mp_frobenius cov (o_X o)) (o_c o)) :: ("full_loglik", wins (fun cov => mp_loglik L cov (o_X o)) (o_c o)) ::
    map (fun b => (pll_key b, wins (fun cov => mp_block_pseudo_loglik L cov (o_X o) b) (o_c o))) bs) ts) as (os & Hos).
  { intros t Hi. destruct (Ht t Hi) as (g0 & g1 & T). unfold pll_trial in T. apply dbind_ok in T as (c & h1 & T1 & T). apply dbind_ok in T as (X & h2 & T2 & T).
    apply dbind_ok in T as (v & h3 & T3 & T). apply dlift_ok in T3 as [T3 ->]. apply keyed_wins in T3 as [-> _].
    apply dbind_ok in T as (v & h4 & T4 & T). apply dlift_ok in T4 as [T4 ->]. apply keyed_wins in T4 as [-> _].
    apply dbind_ok in T as (vs & h5 & T5 & T). apply dlift_ok in T5 as [T5 ->]. apply dret_ok in T as [-> _]. apply mapM_keyed in T5 as [-> _]. exists (mkOutcome c X [] (fun _ => [])). reflexivity. }
  exists os. split; [rewrite <- Hl; eapply f2_length, Hos|]. apply f2_map in Hos.
  assert (TT : tally String.eqb (pll_key b) (concat ts) = count_occ Z.eq_dec bs b * length (filter (fun o => wins (fun cov => mp_block_pseudo_loglik L cov (o_X o) b) (o_c o)) os)).
  { rewrite Hos. clear. induction os as [|o os IH]; [cbn; lia|]. cbn [map concat filter]. rewrite tally_app, IH. set (w := fun b => wins (fun cov => mp_block_pseudo_loglik L cov (o_X o) b) (o_c o)). change (wins (fun cov => mp_block_pseudo_loglik L cov (o_X o) b) (o_c o)) with (w b).
    match goal with |- tally ?e ?k (?x :: ?y :: ?r) + _ = _ => assert (E2 : tally e k (x :: y :: r) = tally e k r) by (unfold tally; cbn [filter fst]; destruct (String.eqb_spec (pll_key b) "frobenius"); [discriminate|]; destruct (String.eqb_spec (pll_key b) "full_loglik"); [discriminate|]; reflexivity); rewrite E2 end.
    change (tally String.eqb (pll_key b) (map (fun b0 => (pll_key b0, w b0)) bs) + count_occ Z.eq_dec bs b * length (filter (fun o => wins (fun cov => mp_block_pseudo_loglik L cov (o_X o) b) (o_c o)) os) =
      count_occ Z.eq_dec bs b * length (if w b then o :: filter (fun o => wins (fun cov => mp_block_pseudo_loglik L cov (o_X o) b) (o_c o)) os else filter (fun o => wins (fun cov => mp_block_pseudo_loglik L cov (o_X o) b) (o_c o)) os)).
    rewrite tally_repeated. destruct (w b); cbn [length]; lia. }
  unfold powers in E. apply mapM_f2 in E. rewrite <- TT.
  assert (HI : In (pll_key b) ("frobenius" :: "full_loglik" :: map pll_key bs)) by (right; right; now apply in_map).
  clear -E HI. induction E as [|k v ks pw Hk E IH]; [destruct HI|]. destruct HI as [->|HI]; [|right; auto]. left. apply bind_ok in Hk as (q & E1 & E2). injection E2 as <-. apply py_div_ok in E1. now rewrite E1.
Qed.

(** *** Projections *)
Lemma choose_fun {B} (Q : option nat -> B -> Prop) (d : B) ks zs : NoDup ks -> Forall2 Q ks zs -> exists f, (forall k, In k ks -> Q k (f k)) /\ zs = map f ks.
Proof.
  intros HN H. induction H as [|k z ks zs Hk H IH]; [exists (fun _ => d); split; [intros k []|reflexivity]|]. apply NoDup_cons_iff in HN as [N1 N2].
  destruct (IH N2) as (f & F1 & F2). exists (fun k' => if optnat_eqb k' k then z else f k'). split.
  - intros k' [<-|Hk']; [rewrite (proj2 (optnat_eqb_eq k k) eq_refl); exact Hk|]. destruct (optnat_eqb k' k) eqn:E; [apply optnat_eqb_eq in E; now subst|]. now apply F1.
  - cbn [map]. rewrite (proj2 (optnat_eqb_eq k k) eq_refl). f_equal. rewrite F2. apply map_ext_in. intros k' Hk'. destruct (optnat_eqb k' k) eqn:E; [apply optnat_eqb_eq in E; now subst|reflexivity].
Qed.
(** the subspaces of a judge are one draw of _random_subspaces, max(1, total // k) of them *)
Definition subspaces_drawn (p total : nat) (k : option nat) (subs : list mat) : Prop :=
  or_full p k <> 0 /\ exists s0 s1, random_subspaces np_qr P p (or_full p k) (Nat.max 1 (total / or_full p k)) s0 = Ok (subs, s1).
Lemma projections {K} (key : option nat -> K) p total (c : contest) X k_list s vs s' : NoDup k_list ->
  dmap R (fun k => dbind R (projection_verdict L np_qr P p total (or_full p k) (c_good c) (c_bad c) X) (fun b => dret R (key k, b))) k_list s = Ok (vs, s') ->
  exists f, (forall k, In k k_list -> subspaces_drawn p total k (f k)) /\ vs = map (fun k => (key k, wins (fun cov => mp_kproj_loglik L cov X (f k)) c)) k_list.
Proof.
  intros HN E. apply dmap_ok in E.
  assert (F : exists zs, Forall2 (subspaces_drawn p total) k_list zs /\ vs = map (fun kz => (key (fst kz), wins (fun cov => mp_kproj_loglik L cov X (snd kz)) c)) (combine k_list zs)).
  { clear HN. induction E as [|k v ks vs (s0 & s1 & T) E IH]; [exists []; split; [constructor|reflexivity]|]. destruct IH as (zs & Z1 & Z2).
    apply dbind_ok in T as (b & h1 & T1 & T). apply dret_ok in T as [-> _]. unfold projection_verdict in T1. apply dbind_ok in T1 as (n & h2 & T1 & T2). apply dlift_ok in T1 as [T1 ->].
    apply dbind_ok in T2 as (subs & h3 & T2 & T3). apply dlift_ok in T3 as [T3 _]. apply agrees_wins in T3 as [-> _]. unfold n_subspaces in T1. destruct (Nat.eqb_spec (or_full p k) 0); [discriminate|]. injection T1 as <-.
    exists (subs :: zs). split; [constructor; [split; eauto|exact Z1]|]. cbn [combine map fst snd]. now rewrite Z2. }
  destruct F as (zs & F & ->). destruct (choose_fun _ [] _ _ HN F) as (f & F1 & ->). exists f. split; [exact F1|]. clear -L. induction k_list as [|k l IH]; [reflexivity|]. cbn [map combine fst snd]. now rewrite IH.
Qed.

(** *** proof_high_dim *)
Theorem C103_proof_high_dim p bulk sig_good sig_bad sig_tail tail_level k_list n_test trials s pw s' :
  proof_high_dim L exp np_qr P p bulk sig_good sig_bad sig_tail tail_level k_list n_test trials s = Ok (pw, s') -> NoDup (map (or_full p) k_list) ->
  bulk <= p /\
  exists lam_bulk os, lam_bulk = fst (r_uniform R (nofZ 2) (nofZ 6) bulk s) /\ length os = trials /\
    Forall (fun o => (exists s0 s1 s2, tail_contest exp np_qr P p lam_bulk (p - length lam_bulk) tail_level sig_good sig_bad sig_tail s0 = Ok (o_c o, s1) /\
                                       r_mvn R (c_truth (o_c o)) n_test s1 = Ok (o_X o, s2)) /\
                     forall k, In k k_list -> subspaces_drawn p 60 k (o_subs o k)) os /\
    pw = ("loglik", share (fun o => wins (fun cov => mp_loglik L cov (o_X o)) (o_c o)) os)
      :: ("stein", share (fun o => wins (fun cov => mp_stein L cov (o_X o)) (o_c o)) os)
      :: ("frobenius", share (fun o => wins (fun cov => mp_frobenius cov (o_X o)) (o_c o)) os)
      :: map (fun k => (proj_key (or_full p k), share (fun o => wins (fun cov => mp_kproj_loglik L cov (o_X o) (o_subs o k)) (o_c o)) os)) k_list.
Proof.
  intros E HN. unfold proof_high_dim in E. apply dbind_ok in E as (lam & s1 & E0 & E).
  unfold draw_bulk in E0. apply dbind_ok in E0 as (l & s2 & D1 & D2). unfold ddraw in D1. injection D1 as D1. destruct (Nat.ltb_spec p bulk); [discriminate|]. apply dret_ok in D2 as [-> ->]. split; [assumption|].
  apply dbind_ok in E as (ts & s3 & E1 & E). apply dlift_ok in E as [E _]. apply dtimes_ok in E1 as [Hl Ht]. rewrite <- Hl in E.
  set (judges := ("loglik", fun (o : outcome) cov => mp_loglik L cov (o_X o)) :: ("stein", fun (o : outcome) cov => mp_stein L cov (o_X o)) :: ("frobenius", fun (o : outcome) cov => mp_frobenius cov (o_X o)) ::
    map (fun k => (proj_key (or_full p k), fun (o : outcome) cov => mp_kproj_loglik L cov (o_X o) (o_subs o k))) k_list).
  replace ("loglik" :: "stein" :: "frobenius" :: map (fun k => proj_key (or_full p k)) k_list) with (map fst judges) in E by (unfold judges; cbn [map fst]; rewrite map_map; reflexivity).
  assert (HK : NoDup k_list) by (eapply NoDup_map_inv, HN).
  destruct (experiment String.eqb string_eqb_eq (fun j : string * (outcome -> mat -> res N) => fst j) (fun o j => wins (snd j o) (o_c o)) judges
    (fun o => (exists s0 s1 s2, tail_contest exp np_qr P p l (p - length l) tail_level sig_good sig_bad sig_tail s0 = Ok (o_c o, s1) /\ r_mvn R (c_truth (o_c o)) n_test s1 = Ok (o_X o, s2)) /\
              forall k, In k k_list -> subspaces_drawn p 60 k (o_subs o k)) ts pw) as (os & H1 & H2 & H3).
  - intros t Hi. destruct (Ht t Hi) as (g0 & g1 & T). unfold high_dim_trial in T. apply dbind_ok in T as (c & h1 & T1 & T). apply dbind_ok in T as (X & h2 & T2 & T).
    apply dbind_ok in T as (v & h3 & T3 & T). apply dlift_ok in T3 as [T3 ->]. apply keyed_wins in T3 as [-> _].
    apply dbind_ok in T as (v & h4 & T4 & T). apply dlift_ok in T4 as [T4 ->]. apply keyed_wins in T4 as [-> _].
    apply dbind_ok in T as (v & h5 & T5 & T). apply dlift_ok in T5 as [T5 ->]. apply keyed_wins in T5 as [-> _].
    apply dbind_ok in T as (vs & h6 & T6 & T). apply dret_ok in T as [-> _]. apply projections in T6 as (f & F1 & ->); [|exact HK].
    exists (mkOutcome c X [] f). split; [split; [cbn [o_c o_X]; do 3 eexists; split; [exact T1|exact T2]|exact F1]|]. unfold judges. cbn [map fst snd o_X o_c o_subs]. rewrite map_map. reflexivity.
  - unfold judges. cbn [map fst]. rewrite map_map. cbn [fst].
    assert (A : forall nm, (forall k, nm <> proj_key k) -> ~ In nm (map (fun k => proj_key (or_full p k)) k_list)) by (intros nm Hn Hi; apply in_map_iff in Hi as (x & Ex & _); now apply (Hn (or_full p x))).
    apply NoDup_cons; [cbn [In]; intros [Hx|[Hx|Hx]]; [discriminate|discriminate|revert Hx; apply A; discriminate]|].
    apply NoDup_cons; [cbn [In]; intros [Hx|Hx]; [discriminate|revert Hx; apply A; discriminate]|].
    apply NoDup_cons; [apply A; discriminate|].
    rewrite <- (map_map (or_full p) proj_key). apply nodup_map; [apply proj_key_inj|exact HN].
  - exact E.
  - exists l, os. split; [now rewrite D1|]. split; [now rewrite H1|]. split; [exact H2|]. rewrite H3. unfold judges. cbn [map fst snd]. rewrite map_map. reflexivity.
Qed.

(** *** projection_power *)
Lemma counted_in {A} (l : list (option A)) a : In a (counted l) <-> In (Some a) l.
Proof.
  unfold counted. rewrite in_flat_map. split.
  - intros (o & H & Ha). destruct o; [destruct Ha as [->|[]]; exact H|destruct Ha].
  - intros H. exists (Some a). split; [exact H|now left].
Qed.
Theorem C103_projection_power p k_list total_dirs eps_good eps_bad n_test trials min_gap s pw gap s' :
  projection_power L np_qr P p k_list total_dirs eps_good eps_bad n_test trials min_gap s = Ok (pw, gap, s') -> NoDup k_list ->
  exists os, length os <= trials /\
    Forall (fun o => (exists s0 s1 s2, perturbed_contest L P p eps_good eps_bad s0 = Ok (o_c o, s1) /\ r_mvn R (c_truth (o_c o)) n_test s1 = Ok (o_X o, s2)) /\
                     nltb (c_gap (o_c o)) min_gap = false /\ forall k, In k k_list -> subspaces_drawn p total_dirs k (o_subs o k)) os /\
    gap = vmean (map (fun o => c_gap (o_c o)) os) /\
    pw = map (fun k => (k, share (fun o => wins (fun cov => mp_kproj_loglik L cov (o_X o) (o_subs o k)) (o_c o)) os)) k_list.
Proof.
  intros E HN. unfold projection_power in E. apply dbind_ok in E as (ts & s1 & E1 & E). apply dtimes_ok in E1 as [Hl Ht]. cbv zeta in E. apply dbind_ok in E as (pw' & s2 & E2 & E).
  apply dlift_ok in E2 as [E2 ->]. apply dret_ok in E as [E _]. injection E as -> ->.
  set (Ex := fun o => (exists s0 s1 s2, perturbed_contest L P p eps_good eps_bad s0 = Ok (o_c o, s1) /\ r_mvn R (c_truth (o_c o)) n_test s1 = Ok (o_X o, s2)) /\
                     nltb (c_gap (o_c o)) min_gap = false /\ forall k, In k k_list -> subspaces_drawn p total_dirs k (o_subs o k)).
  set (w := fun o k => wins (fun cov => mp_kproj_loglik L cov (o_X o) (o_subs o k)) (o_c o)).
  destruct (explain (fun o t => Ex o /\ t = (c_gap (o_c o), map (fun k => (k, w o k)) k_list)) (counted ts)) as (os & Hos).
  { intros t Hi. apply counted_in in Hi. destruct (Ht _ Hi) as (g0 & g1 & T). unfold projection_trial in T. apply dbind_ok in T as (c & h1 & T1 & T). destruct (nltb (c_gap c) min_gap) eqn:EG; [now apply dret_ok in T as [T _]|].
    apply dbind_ok in T as (X & h2 & T2 & T). apply dbind_ok in T as (vs & h3 & T3 & T). apply dret_ok in T as [T _]. injection T as ->.
    apply projections in T3 as (f & F1 & ->); [|exact HN]. exists (mkOutcome c X [] f). split; [|reflexivity]. split; [cbn [o_c o_X]; do 3 eexists; split; [exact T1|exact T2]|]. split; [exact EG|exact F1]. }
  assert (Hc : length os = length (counted ts)) by (eapply f2_length, Hos).
  assert (Hd : length (counted ts) <= length ts). { clear. unfold counted. induction ts as [|[a|] ts IH]; cbn; lia. }
  assert (ET : counted ts = map (fun o => (c_gap (o_c o), map (fun k => (k, w o k)) k_list)) os) by (apply f2_map; eapply f2_imp; [|exact Hos]; intros o t [_ H]; exact H).
  exists os. split; [lia|]. split; [eapply f2_left; [|exact Hos]; intros o t [H _]; exact H|]. split; [rewrite ET, map_map; reflexivity|].
  rewrite ET, map_map, map_length in E2. cbn [snd] in E2. rewrite <- (map_id k_list) in E2 at 1.
  apply (powers_share optnat_eqb optnat_eqb_eq (fun k => k) w k_list os (length os) pw') in E2; auto. now rewrite map_id.
Qed.

(** *** run *)
Lemma at_size_one {B} n (l : list (nat * B)) b : NoDup (map fst l) -> In (n, b) l -> map snd (filter (fun e => Nat.eqb n (fst e)) l) = [b].
Proof.
  induction l as [|[m x] l IH]; intros HN Hi; [contradiction|]. cbn [map fst] in HN. apply NoDup_cons_iff in HN as [H1 H2]. cbn [filter fst]. destruct Hi as [Hi|Hi].
  - injection Hi as -> ->. rewrite Nat.eqb_refl. cbn [map snd]. f_equal. clear -H1. induction l as [|[m x] l IH]; [reflexivity|]. cbn [filter fst]. destruct (Nat.eqb_spec n m); [subst; exfalso; apply H1; now left|].
    apply IH. intros Hi. apply H1. now right.
  - destruct (Nat.eqb_spec n m); [subst; exfalso; apply H1; change m with (fst (m, b)); now apply in_map|]. now apply IH.
Qed.
Theorem C103_run p eps_good eps_bad n_grid trials n_dirs min_gap s pw gap s' :
  run L log P p eps_good eps_bad n_grid trials n_dirs min_gap s = Ok (pw, gap, s') -> NoDup n_grid ->
  exists os, length os <= trials /\
    Forall (fun o => exists s0 s1 dirs s2 s3, perturbed_contest L P p eps_good eps_bad s0 = Ok (o_c o, s1) /\ nltb (c_gap (o_c o)) min_gap = false /\
                     r_normal R n_dirs p s1 = (dirs, s2) /\ o_dirs o = unit_rows dirs /\ r_mvn R (c_truth (o_c o)) (list_max n_grid) s2 = Ok (o_X o, s3)) os /\
    gap = vmean (map (fun o => c_gap (o_c o)) os) /\
    pw = map (fun m => (fst m, map (fun n => (n, share (fun o => wins (fun cov => snd m cov (firstn n (o_X o)) (o_dirs o)) (o_c o)) os)) n_grid)) (METRICS L log).
Proof.
  intros E HN. unfold run in E. apply dbind_ok in E as (ts & s1 & E1 & E). apply dtimes_ok in E1 as [Hl Ht]. apply dlift_ok in E as [E _].
  set (Ex := fun o => exists s0 s1 dirs s2 s3, perturbed_contest L P p eps_good eps_bad s0 = Ok (o_c o, s1) /\ nltb (c_gap (o_c o)) min_gap = false /\
                     r_normal R n_dirs p s1 = (dirs, s2) /\ o_dirs o = unit_rows dirs /\ r_mvn R (c_truth (o_c o)) (list_max n_grid) s2 = Ok (o_X o, s3)).
  set (w := fun o n (m : string * (mat -> mat -> mat -> res N)) => wins (fun cov => snd m cov (firstn n (o_X o)) (o_dirs o)) (o_c o)).
  set (vs_of := fun o n => map (fun m => (fst m, w o n m)) (METRICS L log)).
  destruct (explain (fun o t => Ex o /\ t = (c_gap (o_c o), map (fun n => (n, vs_of o n)) n_grid)) (counted ts)) as (os & Hos).
  { intros t Hi. apply counted_in in Hi. destruct (Ht _ Hi) as (g0 & g1 & T). unfold run_trial in T. apply dbind_ok in T as (c & h1 & T1 & T). destruct (nltb (c_gap c) min_gap) eqn:EG; [now apply dret_ok in T as [T _]|].
    apply dbind_ok in T as (dirs & h2 & T2 & T). unfold ddraw in T2. injection T2 as T2. apply dbind_ok in T as (n & h3 & T3 & T). apply dlift_ok in T3 as [T3 ->].
    assert (n = list_max n_grid) by (unfold biggest in T3; destruct n_grid; [discriminate|now injection T3 as <-]). subst n.
    apply dbind_ok in T as (pool & h4 & T4 & T). apply dbind_ok in T as (vs & h5 & T5 & T). apply dlift_ok in T5 as [T5 ->]. apply dret_ok in T as [T _]. injection T as ->.
    exists (mkOutcome c pool (unit_rows dirs) (fun _ => [])). split; [do 5 eexists; cbn [o_c o_X o_dirs]; split; [exact T1|]; split; [exact EG|]; split; [exact T2|]; split; [reflexivity|exact T4]|].
    cbn [o_c]. f_equal. unfold run_verdicts in T5. apply mapM_f2 in T5. clear -T5. induction T5 as [|n v ns vs H T5 IH]; [reflexivity|]. cbn [map]. rewrite IH. f_equal.
    apply bind_ok in H as (x & H1 & H2). injection H2 as <-. f_equal. unfold vs_of, w. cbn [o_X o_dirs o_c]. revert x H1. generalize (METRICS L log). intros ms. induction ms as [|m ms IHm]; intros x H1; cbn [mapM] in H1; [now injection H1 as <-|].
    apply bind_ok in H1 as (b & H1 & H2). apply bind_ok in H2 as (bs & H2 & H3). injection H3 as <-. apply bind_ok in H1 as (b' & H1 & H4). injection H4 as <-. apply (agrees_wins (fun cov => snd m cov (firstn n pool) (unit_rows dirs))) in H1 as [-> _].
    cbn [map]. f_equal. now apply IHm. }
  assert (Hc : length os = length (counted ts)) by (eapply f2_length, Hos).
  assert (Hd : length (counted ts) <= length ts). { clear. unfold counted. induction ts as [|[a|] ts IH]; cbn; lia. }
  assert (ET : counted ts = map (fun o => (c_gap (o_c o), map (fun n => (n, vs_of o n)) n_grid)) os) by (apply f2_map; eapply f2_imp; [|exact Hos]; intros o t [_ H]; exact H).
  exists os. split; [lia|]. split; [eapply f2_left; [|exact Hos]; intros o t [H _]; exact H|]. rewrite ET in E. unfold run_table in E. apply bind_ok in E as (pw' & E1 & E). injection E as <- <-. split; [now rewrite map_map|].
  assert (AT : forall n, In n n_grid -> at_size n (map snd (map (fun o => (c_gap (o_c o), map (fun n => (n, vs_of o n)) n_grid)) os)) = map (fun o => vs_of o n) os).
  { intros n Hn. rewrite map_map. cbn [snd]. unfold at_size. clear -HN Hn. induction os as [|o os IH]; [reflexivity|]. cbn [map concat]. rewrite filter_app, map_app, IH. cbn [map]. rewrite (at_size_one n _ (vs_of o n)); [reflexivity| |].
    - rewrite map_map. cbn [fst]. now rewrite map_id.
    - apply in_map_iff. eauto. }
  apply mapM_f2 in E1. assert (ND : NoDup (map fst (METRICS L log))) by (repeat constructor; cbn; intuition discriminate).
  assert (G : forall ms, incl ms (METRICS L log) -> forall pw : list (string * list (nat * N)), Forall2 (fun m b => bind (mapM (fun n => let vs := at_size n (map snd (map (fun o => (c_gap (o_c o), map (fun n => (n, vs_of o n)) n_grid)) os)) in
        bind (py_div (N := N) (nofn (tally String.eqb m (concat vs))) (nofn (length vs))) (fun q => Ok (n, q))) n_grid) (fun row => Ok (m, row)) = Ok b) (map fst ms) pw ->
      pw = map (fun m => (fst m, map (fun n => (n, share (fun o => w o n m) os)) n_grid)) ms).
  { intros ms. induction ms as [|m ms IH]; intros HI pw H; cbn [map] in H; inversion H as [|? ? ? ? H1 H2]; subst; [reflexivity|]. cbn [map]. f_equal; [|apply IH; [intros x Hx; apply HI; now right|exact H2]].
    apply bind_ok in H1 as (row & H1 & H3). injection H3 as <-. f_equal. apply mapM_f2 in H1.
    assert (G2 : forall ns, incl ns n_grid -> forall row : list (nat * N), Forall2 (fun n b => (let vs := at_size n (map snd (map (fun o => (c_gap (o_c o), map (fun n => (n, vs_of o n)) n_grid)) os)) in
        bind (py_div (N := N) (nofn (tally String.eqb (fst m) (concat vs))) (nofn (length vs))) (fun q => Ok (n, q))) = Ok b) ns row -> row = map (fun n => (n, share (fun o => w o n m) os)) ns).
    { intros ns. induction ns as [|n ns IHn]; intros HI' r Hr; inversion Hr as [|? ? ? ? R1 R2]; subst; [reflexivity|]. cbn [map]. f_equal; [|apply IHn; [intros x Hx; apply HI'; now right|exact R2]].
      cbv zeta in R1. rewrite (AT n) in R1 by (apply HI'; now left). apply bind_ok in R1 as (q & R1 & R3). injection R3 as <-. f_equal. apply py_div_ok in R1. rewrite R1, map_length. unfold share.
      unfold vs_of. rewrite (tally_trials String.eqb string_eqb_eq (fun m : string * (mat -> mat -> mat -> res N) => fst m) (fun o m => w o n m) (METRICS L log) m os ND) by (apply HI; now left). reflexivity. }
    apply G2; [intros x Hx; exact Hx|exact H1]. }
  apply G; [intros x Hx; exact Hx|exact E1].
Qed.
End Experiments.

(** * Properties C50-C52, C57: the keyed adapters

    Law-free: any scalar type, any wrapped class [C], any LAPACK. *)
From Coq Require Import ZArith Bool String List Lia Arith.
From Verif Require Import Num Numpy PyVal LinalgModel StateModel BaseModel Estimators RegistryModel KeyedModel
  Spec KeyedSpec ListLemmas BaseProofs Shapes ClassShapes BlockShapes StreamProofs RegistryProofs KeyedProofs.
Import ListNotations.
Local Open Scope string_scope.
Local Open Scope list_scope.

(** ** C50 *)
(** Whatever the imputation policy, the order of the dict entries and the extra keys: when every
    observation has all the names of the universe, the wrapped estimator is exactly the positional
    estimator fed the values in the order of the universe, call by call, exceptions included. *)
Theorem C50_fixed_universe_refines_positional :
  forall (N : Num) (C : EstClass N) (proto : inst C) fac keys impute u0 h u rs,
    fixed_new fac false keys impute = Ok u0 -> h <> [] ->
    let ks := universe_names keys h in
    Forall (has_all ks) h ->
    run_fixed proto u0 h = (u, rs) ->
    let positional := run (make fac proto) (feed (map (values ks) h)) in
    wrapped u = Some (fst positional) /\ rs = snd positional /\ fx_keys u = Some ks.
Proof.
  intros N C proto fac keys impute u0 h u rs E0 Hh ks Hall Hrun positional.
  assert (E : u0 = mkFixed fac keys impute None).
  { unfold fixed_new, mk_factory in E0. destruct fac; simpl in E0; congruence. }
  subst u0 positional. clear E0.
  destruct h as [|x h]; [congruence|]. clear Hh. cbn [run_fixed] in Hrun.
  assert (Eks : ks = match keys with Some k => k | None => obs_keys x end) by (unfold ks; destruct keys; auto).
  (* with all keys present no missing value is ever computed *)
  assert (L0 : forall (est : inst C) y pre cur l, has_all l y -> length cur = length l ->
    fx_loop est impute y (length pre) l (pre ++ cur) = (pre ++ zipw (comp y) l cur, Ok (values l y))).
  { intros est y pre cur l. revert pre cur. induction l as [|k l IH]; intros pre cur Hl Hlen.
    - destruct cur; [|discriminate]. reflexivity.
    - destruct cur as [|c cur]; [discriminate|]. injection Hlen as Hlen. cbn [fx_loop zipw values map].
      assert (Hk : In k (obs_keys y)) by (apply Hl; now left). apply dget_In in Hk. destruct Hk as [v Hv].
      unfold comp at 1. rewrite Hv. rewrite list_set_app.
      replace (pre ++ v :: cur) with ((pre ++ [v]) ++ cur) by (now rewrite <- app_assoc).
      replace (S (length pre)) with (length (pre ++ [v])) by (rewrite app_length; simpl; lia).
      rewrite IH; [|intros j Hj; apply Hl; now right|exact Hlen]. now rewrite <- app_assoc. }
  assert (Step : forall kopt core h0 y (o : inst C),
    match kopt with Some k => k | None => obs_keys y end = ks ->
    match core with Some c => c | None => (make fac proto, vzeros (length ks)) end = (o, seen ks h0) ->
    has_all ks y ->
    fixed_update proto (mkFixed fac kopt impute core) y =
    (mkFixed fac (Some ks) impute (Some (fst (partial_fit o (In1 (values ks y))), seen ks (h0 ++ [y]))),
     snd (partial_fit o (In1 (values ks y))))).
  { intros kopt core h0 y o Hk Hc Hy. unfold fixed_update. cbn [fx_keys fx_core fx_fac fx_impute].
    rewrite Hk, Hc. pose proof (L0 o y [] (seen ks h0) ks Hy (seen_length ks h0)) as F. cbn [app length] in F.
    rewrite F. destruct (partial_fit o (In1 (values ks y))) as [o' r]. cbn [fst snd].
    unfold seen at 1. rewrite zipw_comp_seen. reflexivity. }
  assert (Run : forall hh h0 (o : inst C), Forall (has_all ks) hh ->
    run_fixed proto (mkFixed fac (Some ks) impute (Some (o, seen ks h0))) hh =
    (mkFixed fac (Some ks) impute (Some (fst (run o (feed (map (values ks) hh))), seen ks (h0 ++ hh))),
     snd (run o (feed (map (values ks) hh))))).
  { clear -Step. induction hh as [|y hh IH]; intros h0 o Hh; [rewrite app_nil_r; reflexivity|].
    inversion Hh as [|? ? Hy Hh']; subst. cbn [run_fixed]. rewrite (Step (Some ks) _ h0 y o) by auto.
    rewrite IH by auto. unfold feed. cbn [map run do_call]. fold (feed (C := C) (map (values ks) hh)).
    destruct (partial_fit o (In1 (values ks y))) as [o' r]. cbn [fst snd].
    destruct (run o' (feed (map (values ks) hh))). cbn [fst snd]. now rewrite <- app_assoc. }
  inversion Hall as [|? ? Hx Hh']; subst.
  rewrite (Step keys None [] x (make fac proto)) in Hrun; auto.
  2:{ now rewrite zeros_seen. }
  rewrite Run in Hrun by auto. unfold feed. cbn [map run do_call]. fold (feed (C := C) (map (values ks) h)).
  destruct (partial_fit (make fac proto) (In1 (values ks x))) as [o' r]. cbn [fst snd] in *.
  destruct (run o' (feed (map (values ks) h))) as [o'' rs']. cbn [fst snd] in *. injection Hrun as <- <-. auto.
Qed.

(** Order and surplus of dict entries do not matter: only the values under the universe's names do. *)
Theorem C50_dict_order_and_extra_keys_ignored :
  forall (N : Num) (C : EstClass N) (proto : inst C) fac ks impute h h',
    Forall2 (fun x y : obs N => forall k, In k ks -> dget k x = dget k y) h h' ->
    let u0 := mkFixed fac (Some ks) impute None in
    run_fixed proto u0 h = run_fixed proto u0 h'.
Proof.
  intros N C proto fac ks impute h h' H u0.
  assert (L0 : forall (est : inst C) (x y : obs N) i l last, (forall k, In k l -> dget k x = dget k y) ->
    fx_loop est impute x i l last = fx_loop est impute y i l last).
  { intros est x y i l. revert i. induction l as [|k l IH]; intros i last Hk; [reflexivity|].
    cbn [fx_loop]. rewrite (Hk k) by now left. destruct (dget k y).
    - rewrite IH; [reflexivity|]. intros; apply Hk; now right.
    - destruct (fx_missing est impute i last); [|reflexivity]. rewrite IH; [reflexivity|]. intros; apply Hk; now right. }
  assert (K : forall core, run_fixed proto (mkFixed fac (Some ks) impute core) h =
                           run_fixed proto (mkFixed fac (Some ks) impute core) h'); [|apply K].
  induction H as [|x y h h' Hxy H IH]; intros core; [reflexivity|]. cbn [run_fixed].
  assert (E : fixed_update proto (mkFixed fac (Some ks) impute core) x =
              fixed_update proto (mkFixed fac (Some ks) impute core) y).
  { unfold fixed_update. cbn [fx_keys fx_core fx_fac fx_impute].
    destruct (match core with Some c => c | None => _ end) as [o last]. rewrite (L0 o x y) by auto. reflexivity. }
  rewrite E. destruct (fixed_update proto (mkFixed fac (Some ks) impute core) y) as [u r] eqn:F.
  assert (exists core', u = mkFixed fac (Some ks) impute core') as (core' & ->).
  { unfold fixed_update in F. cbn [fx_keys fx_core fx_fac fx_impute] in F.
    destruct (match core with Some c => c | None => _ end) as [o last].
    destruct (fx_loop o impute y 0 ks last) as [l [yy|e]].
    - destruct (partial_fit o (In1 yy)). injection F as <- _. eauto.
    - injection F as <- _. eauto. }
  now rewrite IH.
Qed.

(** ** C51 *)
Theorem C51_ffill_uses_last_seen_value :
  forall (N : Num) (C : EstClass N) (proto : inst C) fac keys u0 h u rs,
    fixed_new fac false keys "ffill" = Ok u0 -> h <> [] ->
    let ks := universe_names keys h in
    run_fixed proto u0 h = (u, rs) ->
    let positional := run (make fac proto) (feed (ffill_history ks h)) in
    wrapped u = Some (fst positional) /\ rs = snd positional.
Proof.
  intros N C proto fac keys u0 h u rs E0 Hh ks Hrun positional.
  assert (E : u0 = mkFixed fac keys "ffill" None).
  { unfold fixed_new, mk_factory in E0. destruct fac; simpl in E0; congruence. }
  subst u0. rewrite (run_fixed_spec proto fac keys "ffill" (fun _ l => l) h) in Hrun by auto.
  unfold positional, ffill_history. fold ks in Hrun. rewrite rows_of_ffill in Hrun. injection Hrun as <- <-.
  cbn [app]. split; reflexivity.
Qed.

Theorem C51_zero_uses_zero :
  forall (N : Num) (C : EstClass N) (proto : inst C) fac keys impute u0 h u rs,
    impute <> "ffill" -> impute <> "mean" ->
    fixed_new fac false keys impute = Ok u0 -> h <> [] ->
    let ks := universe_names keys h in
    run_fixed proto u0 h = (u, rs) ->
    let positional := run (make fac proto) (feed (map (values ks) h)) in
    wrapped u = Some (fst positional) /\ rs = snd positional.
Proof.
  intros N C proto fac keys impute u0 h u rs H1 H2 E0 Hh ks Hrun positional.
  assert (E : u0 = mkFixed fac keys impute None).
  { unfold fixed_new, mk_factory in E0. destruct fac; simpl in E0; congruence. }
  subst u0. rewrite (run_fixed_spec proto fac keys impute (fun _ _ => n0) h) in Hrun.
  - unfold positional. fold ks in Hrun. rewrite rows_of_const in Hrun. injection Hrun as <- <-. split; reflexivity.
  - intros o j l. unfold fx_missing.
    destruct (String.eqb_spec impute "ffill"); [congruence|]. destruct (String.eqb_spec impute "mean"); [congruence|].
    reflexivity.
  - exact Hh.
Qed.

(** The row "mean" imputation hands to an estimator with [n] samples and location [loc]: present
    values as they are, a missing name its running mean -- or, before the first absorbed sample, its
    last seen value. *)
Definition mean_filled {N : Num} (n : nat) (loc : vec N) (ks : list string) (h : list (obs N)) (x : obs N) (y : vec N) : Prop :=
  length y = length ks /\
  forall i k, nth_error ks i = Some k ->
    nth_error y i = Some (match dget k x with
                          | Some v => v
                          | None => if Nat.ltb 0 n then nth i loc n0 else last_seen k h end).

Theorem C51_mean_uses_running_mean :
  forall (N : Num) (C : EstClass N) (proto : inst C) fac keys u0 h x u rs u' r,
    fixed_new fac false keys "mean" = Ok u0 ->
    run_fixed proto u0 h = (u, rs) -> no_raise rs ->
    fixed_update proto u x = (u', r) ->
    let ks := universe_names keys (h ++ [x]) in
    let o := match wrapped u with Some o => o | None => make fac proto end in
    forall n loc, n_samples_ o = Ok n -> (n >= 1 -> location_ o = Ok loc /\ length loc = length ks) ->
    exists y, mean_filled n loc ks h x y /\
      wrapped u' = Some (fst (partial_fit o (In1 y))) /\ r = snd (partial_fit o (In1 y)).
Proof.
  intros N C proto fac keys u0 h x u rs u' r E0 Hrun Hq Hup ks o n loc Hn Hloc.
  assert (E : u0 = mkFixed fac keys "mean" None).
  { unfold fixed_new, mk_factory in E0. destruct fac; simpl in E0; congruence. }
  subst u0. clear E0.
  assert (S0 : exists kopt core, u = mkFixed fac kopt "mean" core /\
    match kopt with Some k => k | None => obs_keys x end = ks /\
    match core with Some c => c | None => (make fac proto, vzeros (length ks)) end = (o, seen ks h)).
  { destruct h as [|y h].
    - simpl in Hrun. injection Hrun as <- <-. exists keys, None. split; [reflexivity|]. split.
      + unfold ks. destruct keys; reflexivity.
      + unfold o. cbn. now rewrite zeros_seen.
    - destruct (run_fixed_quiet proto fac keys "mean" (y :: h) u rs ltac:(discriminate) Hrun Hq) as (o' & ->).
      eexists _, _. split; [reflexivity|]. split; [unfold ks; destruct keys; reflexivity|].
      unfold o. cbn. unfold ks. destruct keys; reflexivity. }
  destruct S0 as (kopt & core & -> & Hk & Hc).
  set (g := fun (j : nat) (l : N) => if Nat.ltb 0 n then nth j loc n0 else l).
  assert (Hg : forall j l, j < length ks -> fx_missing o "mean" j l = Ok (g j (nth j l n0))).
  { intros j l Hj. unfold fx_missing. cbn [String.eqb Ascii.eqb Bool.eqb]. rewrite Hn. cbn [bind]. unfold g.
    destruct (Nat.ltb_spec 0 n) as [H0|H0]; [|reflexivity]. destruct (Hloc H0) as [-> Hl]. cbn [bind].
    rewrite (nth_error_nth' loc n0) by (rewrite Hl; exact Hj). reflexivity. }
  rewrite (fixed_update_step proto fac kopt "mean" core h x ks o (seen ks h) g) in Hup by auto.
  injection Hup as <- <-.
  exists (fillz x g 0 ks (seen ks h)). split; [|split; reflexivity].
  split; [apply fillz_length, seen_length|]. intros i k Hi.
  rewrite (fillz_nth x g 0 ks (seen ks h) i k) by (auto; apply seen_length). f_equal.
  destruct (dget k x); [reflexivity|]. unfold g. simpl. destruct (Nat.ltb 0 n); [reflexivity|].
  unfold seen. erewrite nth_error_nth; [reflexivity|]. rewrite nth_error_map, Hi. reflexivity.
Qed.

(** ** C52 *)
Definition all_known (q ks : list string) : Prop := forall k, In k q -> In k ks.

Theorem C52_selection_is_submatrix :
  forall (N : Num) (C : EstClass N) (u : fixed C) ks o last cov q,
    fx_keys u = Some ks -> fx_core u = Some (o, last) -> NoDup ks ->
    covariance_ o = Ok cov -> is_mat (length ks) (length ks) cov ->
    all_known q ks ->
    exists M, fixed_cov_array u (Some q) = Ok (M, q) /\ is_mat (length q) (length q) M /\
      forall a b i j ka kb, nth_error q a = Some ka -> nth_error q b = Some kb ->
        nth_error ks i = Some ka -> nth_error ks j = Some kb -> mget M a b = mget cov i j.
Proof.
  intros N C u ks o last cov q Hk Hc Hnd Hcov Hm Hq.
  unfold fixed_cov_array. rewrite Hc, Hk, Hcov. cbn [bind].
  destruct (strs_eqb q ks) eqn:Eq.
  { apply strs_eqb_eq in Eq. subst q. exists cov. split; [reflexivity|]. split; [exact Hm|].
    intros a b i j ka kb Ha Hb Hi Hj.
    now rewrite (NoDup_nth_error' ks a i ka Hnd Ha Hi), (NoDup_nth_error' ks b j kb Hnd Hb Hj). }
  clear Eq.
  assert (I : exists idx, mapM (fun k => index_of k ks) q = Ok idx /\ length idx = length q /\
            forall a ka i, nth_error q a = Some ka -> nth_error ks i = Some ka -> nth_error idx a = Some i).
  { clear -Hq Hnd. induction q as [|k q IH].
    - exists []. repeat split; auto. intros [|a]; discriminate.
    - destruct IH as (idx & E & L & H). { intros k' Hk'. apply Hq. now right. }
      destruct (index_of_ok k ks) as (i & Ei & Hi). { apply Hq. now left. }
      exists (i :: idx). cbn [mapM]. rewrite Ei. cbn [bind]. rewrite E. split; [reflexivity|].
      split; [simpl; congruence|]. intros [|a] ka j Ha Hj; simpl in *.
      + injection Ha as ->. f_equal. eapply NoDup_nth_error'; eauto.
      + eapply H; eauto. }
  destruct I as (idx & Ei & Li & Hidx). rewrite Ei. cbn [bind].
  assert (Hr : Forall (fun i => i < length ks) idx).
  { apply Forall_forall. intros i Hi. apply In_nth_error in Hi. destruct Hi as [a Ha].
    assert (Ha' : a < length q) by (rewrite <- Li; apply nth_error_Some; congruence).
    destruct (nth_error q a) as [ka|] eqn:Eka; [|apply nth_error_None in Eka; lia].
    assert (Hin : In ka ks) by (apply Hq; eapply nth_error_In; eauto).
    apply In_nth_error in Hin. destruct Hin as [j Hj]. rewrite (Hidx a ka j Eka Hj) in Ha. injection Ha as <-.
    apply nth_error_Some. congruence. }
  set (p := length ks) in *.
  assert (X : ix_ cov idx = Ok (map (fun i => map (fun j => mget cov i j) idx) idx)).
  { unfold ix_. apply mapM_all_ok. intros i Hi. rewrite Forall_forall in Hr. specialize (Hr i Hi) as Hip.
    destruct (nth_error cov i) as [row|] eqn:Er.
    2:{ apply nth_error_None in Er. destruct Hm as [H1 _]. rewrite H1 in Er. lia. }
    apply mapM_all_ok. intros j Hj. specialize (Hr j Hj).
    assert (Lrow : length row = p).
    { destruct Hm as [_ H2]. rewrite Forall_forall in H2. apply H2. eapply nth_error_In; eauto. }
    rewrite (nth_error_nth' row n0) by (rewrite Lrow; exact Hr).
    unfold mget. now rewrite (nth_error_nth cov i [] Er). }
  rewrite X. cbn [bind]. eexists. split; [reflexivity|]. split.
  - split; [rewrite map_length; exact Li|]. rewrite Forall_map. apply Forall_forall. intros. rewrite map_length. exact Li.
  - intros a b i j ka kb Ha Hb Hi Hj. unfold mget at 1.
    erewrite (nth_error_nth _ a). 2:{ rewrite nth_error_map. rewrite (Hidx a ka i Ha Hi). reflexivity. }
    erewrite (nth_error_nth _ b). 2:{ rewrite nth_error_map. rewrite (Hidx b kb j Hb Hj). reflexivity. }
    reflexivity.
Qed.

Theorem C52_unknown_name_raises :
  forall (N : Num) (C : EstClass N) (u : fixed C) ks o last cov q k,
    fx_keys u = Some ks -> fx_core u = Some (o, last) -> covariance_ o = Ok cov ->
    In k q -> ~ In k ks -> fixed_cov_array u (Some q) = Err ValueError.
Proof.
  intros N C u ks o last cov q k Hk Hc Hcov Hin Hnot. unfold fixed_cov_array. rewrite Hc, Hk, Hcov. cbn [bind].
  destruct (strs_eqb q ks) eqn:Eq; [apply strs_eqb_eq in Eq; subst; contradiction|].
  assert (E : mapM (fun k0 => index_of k0 ks) q = Err ValueError).
  { clear -Hin Hnot. induction q as [|k' q IH]; [destruct Hin|]. cbn [mapM].
    destruct (index_of k' ks) as [i|e] eqn:Ei.
    - cbn [bind]. rewrite IH; [reflexivity|]. destruct Hin as [->|H]; [|exact H].
      rewrite index_of_err in Ei by auto. discriminate.
    - cbn [bind]. destruct (in_dec string_dec k' ks) as [Hi|Hi].
      + destruct (index_of_ok k' ks Hi) as (i & Ei' & _). congruence.
      + rewrite index_of_err in Ei by auto. congruence. }
  now rewrite E.
Qed.

(** Nothing can be read before the first observation. *)
Theorem C52_no_observation_raises :
  forall (N : Num) (C : EstClass N) fac keys impute (u : fixed C) q,
    fixed_new fac false keys impute = Ok u -> fixed_cov_array u q = Err ValueError.
Proof.
  intros N C fac keys impute u q. unfold fixed_new, mk_factory. destruct fac; simpl; intros [= <-]; reflexivity.
Qed.

(** For the registered classes the hypotheses on the shape of [covariance_] are met automatically. *)
Theorem C52_selection_for_registered_classes :
  forall (N : Num) (L : LinAlg N), la_shapes L -> forall fuel k, In k (registry L fuel) ->
  forall (proto : inst (rg_class k)) fac ks impute u0 h u rs o last cov,
    NoDup ks -> ks <> [] -> fixed_new fac false (Some ks) impute = Ok u0 ->
    Forall (has_all ks) h -> h <> [] ->
    run_fixed proto u0 h = (u, rs) -> fx_core u = Some (o, last) -> covariance_ o = Ok cov ->
    is_mat (length ks) (length ks) cov.
Proof.
  intros N L HL fuel k Hk proto fac ks impute u0 h u rs o last cov Hnd Hne E0 Hall Hh Hrun Hc Hcov.
  destruct (C50_fixed_universe_refines_positional N (rg_class k) proto fac (Some ks) impute u0 h u rs E0 Hh Hall Hrun)
    as (W & _ & _). cbn [universe_names] in W.
  unfold wrapped in W. rewrite Hc in W. cbn in W. injection W as Ho.
  destruct (registry_behaved L HL fuel k Hk) as (wf & R & HB).
  set (p := length ks). assert (Hp : 1 <= p) by (unfold p; destruct ks; [congruence|simpl; lia]).
  assert (G : good wf p o).
  { rewrite Ho. apply (run_good wf R HB p); auto.
    - unfold make. destruct fac; apply new_good.
    - apply Forall_forall. intros c Hin. unfold feed in Hin. rewrite map_map in Hin. apply in_map_iff in Hin.
      destruct Hin as (x & <- & _). simpl. constructor; [apply map_length|constructor]. }
  destruct G as [G _]. unfold covariance_, fitted_state in Hcov. destruct (i_state o) as [s|]; [|discriminate].
  destruct (get_or 0%nat (c_nsamples (rg_class k) s)); [|discriminate]. cbn [bind] in Hcov. destruct (Nat.ltb a 1); [discriminate|].
  cbn [bind] in Hcov.
  pose proof (bh_cov _ _ _ HB (i_params o) p s Hp (proj1 (G s eq_refl))) as Hs.
  destruct (c_cov (rg_class k) (i_params o) s) as [c|]; [|discriminate]. cbn [bind] in Hcov.
  pose proof (to_symmetric_sh (fun _ => True) p c Hs Hp) as T. now rewrite Hcov in T.
Qed.

(** ** C57 *)
Lemma do_call_params {N} {C : EstClass N} (o : inst C) c :
  match c with SetParams _ _ => False | _ => True end -> i_params (fst (do_call o c)) = i_params o.
Proof.
  assert (A : forall (o : inst C) x, i_params (fst (absorb o x)) = i_params o).
  { intros o' x. unfold absorb. destruct (i_state o') as [s|].
    - destruct (c_update _ _ _ _); reflexivity.
    - destruct (c_init _ _ _); [destruct (c_update _ _ _ _)|]; reflexivity. }
  assert (F : forall rows (o : inst C), i_params (fst (fit_rows o rows)) = i_params o).
  { induction rows as [|x rows IH]; intros o'; [reflexivity|]. cbn [fit_rows].
    assert (R : i_params (fst (fit_row o' x)) = i_params o').
    { unfold fit_row. destruct (c_diff C (i_params o')); [|apply A]. destruct (i_prev o'); [|reflexivity].
      destruct (vsub x v); [|reflexivity]. rewrite A. reflexivity. }
    destruct (fit_row o' x) as [o1 [[]|e]]; simpl in R; [|exact R]. rewrite IH. exact R. }
  destruct c as [X|X|P]; intros H; [| |contradiction]; simpl.
  - unfold partial_fit. destruct (as_rows X); [apply F|reflexivity].
  - unfold fit. destruct X; try reflexivity. unfold partial_fit. cbn [as_rows]. rewrite F. reflexivity.
Qed.

Lemma learn_one_proto {N} {C : EstClass N} (p p' : inst C) a x : i_params p = i_params p' -> learn_one p a x = learn_one p' a x.
Proof.
  intros E. assert (M : forall f, make f p = make f p') by (intros [P|]; [reflexivity|]; unfold make, clone; now rewrite E).
  destruct a as [u|d]; simpl.
  - unfold fixed_update. now rewrite M.
  - unfold dynamic_update. now rewrite M.
Qed.

(** The adapter never fits the prototype, and the prototype's own history does not leak into it: in
    any interleaving of [learn_one] calls with calls on the prototype (other than [set_params]), the
    prototype ends as if the adapter did not exist and the adapter as if the prototype had been left
    alone. *)
Theorem C57_prototype_and_adapter_do_not_interfere :
  forall (N : Num) (C : EstClass N) (proto : inst C) a evs,
    params_kept evs ->
    let '(p', a', rs) := run_world proto a evs in
    p' = fst (run proto (on_proto evs)) /\ (a', rs) = run_adapter proto a (learned evs).
Proof.
  intros N C proto a evs H.
  assert (K : forall p, i_params p = i_params proto -> forall a,
    let '(p', a', rs) := run_world p a evs in
    p' = fst (run p (on_proto evs)) /\ (a', rs) = run_adapter proto a (learned evs)); [|now apply K].
  clear a. induction H as [|e evs He H IH]; intros p Hp a; [simpl; auto|].
  destruct e as [x|c]; cbn [run_world on_proto learned flat_map app].
  - rewrite (learn_one_proto p proto) by auto. cbn [run_adapter]. destruct (learn_one proto a x) as [a1 r1].
    specialize (IH p Hp a1). destruct (run_world p a1 evs) as [[p'' a''] rs']. destruct IH as [I1 I2].
    fold (on_proto evs) (learned evs). split; [exact I1|]. now rewrite <- I2.
  - cbn [run]. pose proof (do_call_params p c) as Hpar. destruct (do_call p c) as [p1 r1]. cbn [fst] in *.
    specialize (IH p1). assert (Hp1 : i_params p1 = i_params proto).
    { rewrite Hpar; [exact Hp|]. destruct c; auto. }
    specialize (IH Hp1 a). destruct (run_world p1 a evs) as [[p'' a''] rs']. destruct IH as [I1 I2].
    fold (on_proto evs) (learned evs). split; [|exact I2]. rewrite I1. destruct (run p1 (on_proto evs)). reflexivity.
Qed.

(** Even with [set_params], the adapter leaves the prototype alone ... *)
Theorem C57_prototype_is_never_fitted :
  forall (N : Num) (C : EstClass N) (proto : inst C) a evs,
    fst (fst (run_world proto a evs)) = fst (run proto (on_proto evs)).
Proof.
  intros N C proto a evs. revert proto a. induction evs as [|[x|c] evs IH]; intros p a; [reflexivity| |];
    cbn [run_world on_proto flat_map app].
  - destruct (learn_one p a x) as [a1 r1]. specialize (IH p a1).
    destruct (run_world p a1 evs) as [[p'' a''] rs']. exact IH.
  - cbn [run]. destruct (do_call p c) as [p1 r1]. cbn [fst]. rewrite IH. fold (on_proto (C := C) evs).
    destruct (run p1 (on_proto evs)). reflexivity.
Qed.

(** ... and a wrapped estimator starts from a clean copy: same parameters, nothing absorbed. *)
Theorem C57_clone_is_unfitted :
  forall (N : Num) (C : EstClass N) (o : inst C),
    i_params (clone o) = i_params o /\ n_samples_ (clone o) = Ok 0 /\ location_ (clone o) = Err NotFittedError /\
    covariance_ (clone o) = Err NotFittedError /\ i_prev (clone o) = None.
Proof. intros. repeat split. Qed.

(** Extra estimator keyword arguments are refused together with an instance, and only then. *)
Theorem C57_kwargs_only_with_a_class :
  forall (N : Num) (C : EstClass N) (f : factory C) keys impute mu ms,
    (fixed_new f true keys impute = Err ValueError <-> f = ByInstance) /\
    (dynamic_new f true mu ms = Err ValueError <-> f = ByInstance).
Proof. intros N C [P|] keys impute mu ms; simpl; split; split; try congruence; try discriminate; auto. Qed.

(** The parameters are read whenever a sub-estimator is made: a later [set_params] on the prototype
    does change universes created after it (and not a FixedUniverse already started). *)
Theorem C57_late_set_params_reaches_new_universes :
  forall (N : Num) (C : EstClass N) (proto : inst C) P mu ms d x u' r,
    dynamic_new (C := C) ByInstance false mu ms = Ok d ->
    universe_update (universe_new (obs_keys x) (new P)) x = (u', r) ->
    dynamic_update (set_params proto P) d x =
    match r with
    | Ok _ => (mkDyn ByInstance mu ms (if Z.ltb mu 1 then [] else [(0, u')]) (Some x) 1, Ok tt)
    | Err e => (mkDyn ByInstance mu ms [] (Some x) 0, Err e)
    end.
Proof.
  intros N C proto P mu ms d x u' r [= <-] Hu. unfold dynamic_update. cbn [dy_states dyn_loop filter existsb dy_fac dy_counter
    dy_max_universes dy_max_staleness make]. unfold clone, set_params. cbn [i_params]. rewrite Hu.
  destruct r as [[]|e]; [|reflexivity]. cbn [app length].
  change (Z.of_nat 1) with 1%Z. destruct (Z.ltb mu 1); reflexivity.
Qed.

Theorem C57_fixed_universe_keeps_its_parameters :
  forall (N : Num) (C : EstClass N) (p p' : inst C) u h, fx_core u <> None -> run_fixed p u h = run_fixed p' u h.
Proof.
  intros N C p p' u h. revert u. induction h as [|x h IH]; intros u Hc; [reflexivity|]. cbn [run_fixed].
  assert (E : fixed_update p u x = fixed_update p' u x).
  { unfold fixed_update. destruct (fx_core u); [reflexivity|congruence]. }
  rewrite E. destruct (fixed_update p' u x) as [u' r] eqn:F. rewrite IH; [reflexivity|].
  unfold fixed_update in F. destruct (match fx_core u with Some c => c | None => _ end) as [o last].
  destruct (fx_loop _ _ _ _ _ _) as [l [y|e]].
  - destruct (partial_fit o (In1 y)). injection F as <- _. discriminate.
  - injection F as <- _. discriminate.
Qed.

(** Non-vacuity: a two-name universe, full observations in different orders and with an extra key,
    one partial observation. *)
Example Keyed_example : forall (N : Num) (a b c d e : N),
  let fac := ByClass (C := Empirical (N := N)) (mkEmpP false) in
  let proto := new (C := Empirical (N := N)) (mkEmpP false) in
  let h := [[("A", a); ("B", b)]; [("B", d); ("X", e); ("A", c)]] in
  let u0 := mkFixed fac None "ffill" None in
  fixed_new fac false None "ffill" = Ok u0 /\ Forall (has_all (universe_names None h)) h /\ Forall is_dict h /\
  values ["A"; "B"] [("B", d); ("X", e); ("A", c)] = [c; d] /\
  snd (run_fixed proto u0 h) = [Ok tt; Ok tt] /\
  ffill_history ["A"; "B"] (h ++ [[("A", e)]]) = [[a; b]; [c; d]; [e; d]] /\
  NoDup ["A"; "B"] /\ ~ In "X" ["A"; "B"].
Proof.
  intros. split; [reflexivity|]. split.
  { constructor; [|constructor; [|constructor]]; intros k Hk; simpl in *; tauto. }
  split. { repeat constructor; simpl; intuition discriminate. }
  split; [reflexivity|]. split; [reflexivity|]. split; [reflexivity|].
  split; [repeat constructor; simpl; intuition discriminate|]. simpl. intuition discriminate.
Qed.

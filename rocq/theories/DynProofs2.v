(** * DynamicUniverse: one successful update, and the history of one universe *)
From Coq Require Import ZArith Bool String List Lia Arith.
From Verif Require Import Num Numpy PyVal LinalgModel BaseModel KeyedModel Spec KeyedSpec ListLemmas BaseProofs KeyedProofs DynProofs.
Import ListNotations.
Local Open Scope list_scope.

Section Dyn2.
  Context {N : Num} {C : EstClass N}.
  Notation inst := (inst C).
  Notation universe := (universe C).
  Notation dynamic := (dynamic C).
  Notation obs := (obs N).

  Definition kept (d : dynamic) (sts1 : list (nat * universe)) : list (nat * universe) :=
    filter (fun kv => negb (dy_max_staleness d <? Z.of_nat (u_stale (snd kv)))%Z) sts1.
  Definition evicted (mu : Z) (sts3 : list (nat * universe)) : list (nat * universe) :=
    if (mu <? Z.of_nat (length sts3))%Z
    then match sts3 with [] => [] | kv :: rest => del_key (fst (first_victim kv rest)) sts3 end
    else sts3.

  Lemma dynamic_update_ok (proto : inst) d x d' : dynamic_update proto d x = (d', Ok tt) ->
    exists sts1, Forall2 (fun kv kv' => fst kv = fst kv' /\ touched x (snd kv) (snd kv')) (dy_states d) sts1 /\
      ((existsb (fun kv => set_eq (obs_keys x) (u_keys (snd kv))) (kept d sts1) = true /\
        dy_states d' = kept d sts1 /\ dy_counter d' = dy_counter d) \/
       (existsb (fun kv => set_eq (obs_keys x) (u_keys (snd kv))) (kept d sts1) = false /\
        exists fresh, universe_update (universe_new (obs_keys x) (make (dy_fac d) proto)) x = (fresh, Ok tt) /\
          dy_states d' = evicted (dy_max_universes d) (kept d sts1 ++ [(dy_counter d, fresh)]) /\
          dy_counter d' = S (dy_counter d))).
  Proof.
    unfold dynamic_update. destruct (dyn_loop x (dy_states d)) as [sts1 [[]|e]] eqn:El; [|discriminate].
    apply dyn_loop_ok in El. fold (kept d sts1). intros H. exists sts1. split; [exact El|].
    destruct (existsb _ (kept d sts1)); [injection H as <-; left; auto|].
    destruct (universe_update _ x) as [fresh [[]|e]]; [|discriminate]. injection H as <-.
    right. split; [reflexivity|]. exists fresh. split; [reflexivity|]. split; reflexivity.
  Qed.

  Lemma evicted_incl mu sts kv : In kv (evicted mu sts) -> In kv sts.
  Proof.
    unfold evicted. destruct (_ <? _)%Z; [|auto]. destruct sts as [|a r]; [auto|]. unfold del_key.
    intros H. now apply filter_In in H.
  Qed.

  Lemma run_dynamic_snoc (proto : inst) d h x :
    run_dynamic proto d (h ++ [x]) =
    let '(d1, rs) := run_dynamic proto d h in
    let '(d2, r) := dynamic_update proto d1 x in (d2, rs ++ [r]).
  Proof.
    revert d. induction h as [|y h IH]; intros d; cbn [run_dynamic app].
    - destruct (dynamic_update proto d x). reflexivity.
    - destruct (dynamic_update proto d y) as [d1 r1]. rewrite IH.
      destruct (run_dynamic proto d1 h) as [d2 rs]. destruct (dynamic_update proto d2 x). reflexivity.
  Qed.
  Lemma run_dynamic_app (proto : inst) d h g :
    run_dynamic proto d (h ++ g) =
    let '(d1, rs) := run_dynamic proto d h in
    let '(d2, rs') := run_dynamic proto d1 g in (d2, rs ++ rs').
  Proof.
    revert d. induction h as [|y h IH]; intros d; cbn [run_dynamic app].
    - destruct (run_dynamic proto d g). reflexivity.
    - destruct (dynamic_update proto d y) as [d1 r1]. rewrite IH.
      destruct (run_dynamic proto d1 h) as [d2 rs]. destruct (run_dynamic proto d2 g). reflexivity.
  Qed.

  Lemma after_snoc (proto : inst) d h x : after proto d (h ++ [x]) = fst (dynamic_update proto (after proto d h) x).
  Proof.
    unfold after. rewrite run_dynamic_snoc. destruct (run_dynamic proto d h) as [d1 rs]. simpl.
    destruct (dynamic_update proto d1 x). reflexivity.
  Qed.

  Lemma counter_mono1 (proto : inst) d x : dy_counter d <= dy_counter (fst (dynamic_update proto d x)).
  Proof.
    unfold dynamic_update. destruct (dyn_loop x (dy_states d)) as [sts1 [[]|e]]; [|simpl; lia].
    destruct (existsb _ _); [simpl; lia|]. destruct (universe_update _ x) as [fr [[]|e]]; simpl; lia.
  Qed.
  Lemma counter_mono (proto : inst) h d : dy_counter d <= dy_counter (after proto d h).
  Proof.
    revert d. induction h as [|x h IH] using rev_ind; intros d; [unfold after; simpl; lia|]. rewrite after_snoc.
    pose proof (IH d). pose proof (counter_mono1 proto (after proto d h) x). lia.
  Qed.
  Lemma after_inv (proto : inst) d h : inv d -> inv (after proto d h) /\ dy_fac (after proto d h) = dy_fac d /\
    dy_max_universes (after proto d h) = dy_max_universes d /\ dy_max_staleness (after proto d h) = dy_max_staleness d.
  Proof.
    intros H. induction h as [|x h IH] using rev_ind; [unfold after; simpl; auto|]. rewrite after_snoc.
    destruct IH as (I1 & I2 & I3 & I4). destruct (dynamic_update_inv proto _ x I1) as (J1 & J2 & J3 & J4).
    repeat split; try apply J1; congruence.
  Qed.

  Lemma idle_since_snoc ks (h : list obs) x :
    idle_since ks (h ++ [x]) = if contains_all ks x then 0 else S (idle_since ks h).
  Proof.
    induction h as [|y h IH]; cbn [idle_since app].
    - simpl. destruct (contains_all ks x); reflexivity.
    - rewrite existsb_app. simpl. rewrite orb_false_r, app_length, IH. simpl.
      destruct (contains_all ks x); [now rewrite orb_true_r|]. rewrite orb_false_r.
      destruct (existsb (contains_all ks) h); [reflexivity|]. destruct (contains_all ks y); simpl; lia.
  Qed.
  Lemma contains_all_subset ks (x : obs) : contains_all ks x = subset ks (obs_keys x).
  Proof. reflexivity. Qed.
  Lemma contains_all_has ks (x : obs) : contains_all ks x = true <-> has_all ks x.
  Proof. rewrite contains_all_subset, subset_incl. reflexivity. Qed.

  Lemma mapM_obs_get ks (x : obs) : has_all ks x -> mapM (obs_get x) ks = Ok (values ks x).
  Proof.
    induction ks as [|k ks IH]; intros H; [reflexivity|]. cbn [mapM values map].
    assert (Hk : In k (obs_keys x)) by (apply H; now left). apply dget_In in Hk. destruct Hk as [v Hv].
    unfold obs_get at 1. rewrite Hv. cbn [bind]. rewrite IH; [reflexivity|]. intros j Hj. apply H. now right.
  Qed.
  Lemma universe_update_pf (u u' : universe) x : has_all (u_keys u) x -> universe_update u x = (u', Ok tt) ->
    partial_fit (u_est u) (In1 (values (u_keys u) x)) = (u_est u', Ok tt) /\
    u_stale u' = 0 /\ u_long u' = S (u_long u) /\ u_keys u' = u_keys u.
  Proof.
    intros H. unfold universe_update. rewrite mapM_obs_get by auto.
    destruct (partial_fit _ _) as [o [[]|e]]; intros [= <-]; auto.
  Qed.

  (** the run of a fresh estimator on a list of observations *)
  Definition fed (o : inst) (ks : list string) (h : list obs) : inst * list (res unit) :=
    run o (feed (map (values ks) h)).
  Lemma fed_snoc o ks h x o1 rs : fed o ks h = (o1, rs) ->
    fed o ks (h ++ [x]) = (fst (partial_fit o1 (In1 (values ks x))), rs ++ [snd (partial_fit o1 (In1 (values ks x)))]).
  Proof.
    unfold fed. revert o rs. induction h as [|y h IH]; intros o rs; unfold feed in *; cbn [map run app do_call].
    - intros [= <- <-]. destruct (partial_fit o _). reflexivity.
    - destruct (partial_fit o (In1 (values ks y))) as [o2 r2].
      destruct (run o2 (map (fun x => PartialFit C (In1 x)) (map (values ks) h))) as [o3 rs3] eqn:E. intros [= <- <-].
      rewrite (IH _ _ E). reflexivity.
  Qed.

  Definition faithful (proto : inst) (d0 : dynamic) (h : list obs) (i : nat) (u : universe) : Prop :=
    exists h1 x0 h2, h = h1 ++ x0 :: h2 /\ u_keys u = obs_keys x0 /\
      (forall g g', h = g ++ g' -> (live (after proto d0 g) i <-> length h1 < length g)) /\
      let mine := filter (contains_all (u_keys u)) (x0 :: h2) in
      let positional := run (make (dy_fac d0) proto) (feed (map (values (u_keys u)) mine)) in
      u_est u = fst positional /\ no_raise (snd positional) /\
      u_long u = length mine /\ u_stale u = idle_since (u_keys u) (x0 :: h2).

  Lemma app_snoc_cases {A} (h : list A) x g g' : h ++ [x] = g ++ g' ->
    (g' = [] /\ g = h ++ [x]) \/ (exists g'', g' = g'' ++ [x] /\ h = g ++ g'').
  Proof.
    destruct g' as [|y g'] using rev_ind; intros H.
    - left. rewrite app_nil_r in H. auto.
    - right. rewrite app_assoc in H. apply app_inj_tail in H. destruct H as [-> ->]. eauto.
  Qed.

  Lemma faithful_run (proto : inst) d0 h : inv d0 -> dy_states d0 = [] -> no_raise (snd (run_dynamic proto d0 h)) ->
    forall i u, In (i, u) (dy_states (after proto d0 h)) -> faithful proto d0 h i u.
  Proof.
    intros I0 E0. induction h as [|x h IH] using rev_ind; intros NR i u' Hin.
    { unfold after in Hin. simpl in Hin. rewrite E0 in Hin. destruct Hin. }
    assert (LiveNow : live (after proto d0 (h ++ [x])) i) by (unfold live; apply in_map_iff; exists (i, u'); auto).
    rewrite after_snoc in Hin. rewrite run_dynamic_snoc in NR.
    destruct (after_inv proto d0 h I0) as (Ia & Fa & _ & _).
    assert (EA : after proto d0 h = fst (run_dynamic proto d0 h)) by reflexivity.
    destruct (run_dynamic proto d0 h) as [d1 rs] eqn:ER. cbn [fst snd] in *. rewrite EA in *.
    destruct (dynamic_update proto d1 x) as [d2 r] eqn:ED. cbn [fst snd] in *.
    apply Forall_app in NR. destruct NR as [NR1 NR2]. apply Forall_inv in NR2. subst r. specialize (IH NR1).
    assert (LEN : length (h ++ [x]) = S (length h)) by (rewrite app_length; simpl; lia).
    destruct (dynamic_update_ok proto d1 x d2 ED) as (sts1 & F & D).
    assert (Cases : (exists u, In (i, u) (dy_states d1) /\ touched x u u') \/
                    (i = dy_counter d1 /\ universe_update (universe_new (obs_keys x) (make (dy_fac d1) proto)) x = (u', Ok tt))).
    { assert (K : In (i, u') (kept d1 sts1) -> exists u, In (i, u) (dy_states d1) /\ touched x u u').
      { intros H. apply filter_In in H. destruct H as [H _]. clear -F H.
        induction F as [|[j v] [j' v'] l l' [H1 H2] F IHF]; [destruct H|]. simpl in *. destruct H as [[= -> ->]|H].
        - subst j. exists v. auto.
        - destruct (IHF H) as (w & A & B). eauto. }
      destruct D as [(_ & SS & _)|(_ & fresh & Fr & SS & _)]; rewrite SS in Hin.
      - left. auto.
      - apply evicted_incl in Hin. apply in_app_or in Hin. destruct Hin as [Hin|[[= <- <-]|[]]]; auto. }
    destruct Cases as [(u & Hu & T)|[-> Fr]].
    - destruct (IH i u Hu) as (h1 & x0 & h2 & Eh & K & Lv & M).
      assert (Ku : u_keys u' = u_keys u).
      { unfold touched in T. destruct (subset _ _); [|now rewrite T]. now apply universe_update_ok in T. }
      exists h1, x0, (h2 ++ [x]). split; [rewrite Eh, <- app_assoc; reflexivity|]. split; [congruence|]. split.
      + intros g g' Hg. destruct (app_snoc_cases _ _ _ _ Hg) as [[-> ->]|(g'' & -> & Hg')].
        * split; [intros _|intros _; exact LiveNow]. rewrite LEN, Eh, app_length. simpl. lia.
        * now apply Lv with g''.
      + cbv zeta in M |- *. rewrite Ku. change (x0 :: h2 ++ [x]) with ((x0 :: h2) ++ [x]). rewrite filter_app, idle_since_snoc.
        change (filter (contains_all (u_keys u)) [x]) with (if contains_all (u_keys u) x then [x] else []).
        rewrite contains_all_subset. unfold touched in T. destruct (subset (u_keys u) (obs_keys x)) eqn:Es.
        * apply universe_update_pf in T; [|now apply contains_all_has]. destruct T as (P & T1 & T2 & _).
          destruct M as (M1 & M2 & M3 & M4). rewrite T1, T2, app_length. simpl length at 2.
          set (mine := filter (contains_all (u_keys u)) (x0 :: h2)) in *.
          destruct (fed (make (dy_fac d0) proto) (u_keys u) mine) as [o1 rs1] eqn:EF.
          pose proof (fed_snoc _ _ _ x _ _ EF) as FS. unfold fed in EF, FS. rewrite EF in M1, M2. cbn [fst snd] in M1, M2.
          subst o1. rewrite P in FS. cbn [fst snd] in FS. rewrite FS. cbn [fst snd].
          repeat split; [|simpl; lia]. apply Forall_app. split; [exact M2|repeat constructor].
        * rewrite app_nil_r. subst u'. cbn [u_est u_long u_stale]. cbv zeta in *.
          destruct M as (M1 & M2 & M3 & M4). repeat split; auto.
    - assert (Hk : has_all (obs_keys x) x) by (intros k Hk; exact Hk).
      apply universe_update_pf in Fr; [|exact Hk]. destruct Fr as (P & T1 & T2 & T3). cbn [universe_new u_est u_long u_keys] in *.
      exists h, x, []. split; [reflexivity|]. split; [exact T3|]. split.
      + intros g g' Hg. destruct (app_snoc_cases _ _ _ _ Hg) as [[-> ->]|(g'' & -> & Hg')].
        * split; [intros _; rewrite LEN; lia|intros _; exact LiveNow].
        * split; [|rewrite Hg', app_length; lia]. intros Lg. exfalso. unfold live in Lg. apply in_map_iff in Lg.
          destruct Lg as (kv & E1 & E2). destruct (after_inv proto d0 g I0) as ([_ _ _ Cn _] & _).
          rewrite Forall_forall in Cn. specialize (Cn _ E2). rewrite E1 in Cn.
          assert (Hm : dy_counter (after proto d0 g) <= dy_counter d1).
          { rewrite <- EA. change (fst (d1, rs)) with d1. replace d1 with (after proto d0 h) by (unfold after; now rewrite ER).
            rewrite Hg'. unfold after. rewrite run_dynamic_app. fold (after proto d0 g).
            pose proof (counter_mono proto g'' (after proto d0 g)) as Hc. unfold after in *.
            destruct (run_dynamic proto d0 g) as [da ra]. cbn [fst] in *. destruct (run_dynamic proto da g''). exact Hc. }
          lia.
      + rewrite T3. simpl filter. replace (contains_all (obs_keys x) x) with true by (symmetry; now apply contains_all_has).
        cbv zeta. unfold feed. cbn [map run do_call]. rewrite <- Fa, P. cbn [fst snd]. repeat split; auto.
        * repeat constructor.
        * rewrite T1. simpl. replace (contains_all (obs_keys x) x) with true by (symmetry; now apply contains_all_has). reflexivity.
  Qed.
End Dyn2.

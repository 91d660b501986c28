(** * Properties C53-C55: the life of the universes of a DynamicUniverse

    Law-free: any scalar type, any wrapped class [C]. *)
From Coq Require Import ZArith Bool String List Lia Arith.
From Verif Require Import Num Numpy PyVal LinalgModel StateModel BaseModel Estimators KeyedModel
  Spec KeyedSpec ListLemmas BaseProofs KeyedProofs DynProofs DynProofs2.
Import ListNotations.
Local Open Scope string_scope.
Local Open Scope list_scope.

Lemma forallb_filter_id {A} f (l : list A) : forallb f l = true -> filter f l = l.
Proof.
  induction l as [|a l IH]; [auto|]. simpl. intros H. apply andb_true_iff in H. destruct H as [-> H]. now rewrite IH.
Qed.

Definition same_names (a b : list string) : Prop := forall k, In k a <-> In k b.

Lemma run_world_inv {N} {C : EstClass N} (p : inst C) d evs p' a' rs : inv d ->
  run_world p (ADynamic d) evs = (p', a', rs) ->
  exists d', a' = ADynamic d' /\ inv d' /\ dy_max_universes d' = dy_max_universes d /\ dy_max_staleness d' = dy_max_staleness d.
Proof.
  revert p d p' a' rs. induction evs as [|[x|c] evs IH]; intros p d p' a' rs Hi; cbn [run_world].
  - intros [= <- <- <-]. exists d. auto.
  - cbn [learn_one]. pose proof (dynamic_update_inv p d x Hi) as (J1 & _ & J3 & J4).
    destruct (dynamic_update p d x) as [d1 r1]. cbn [fst] in *.
    destruct (run_world p (ADynamic d1) evs) as [[p2 a2] rs2] eqn:E. intros [= <- <- <-].
    destruct (IH _ _ _ _ _ J1 E) as (d' & E1 & E2 & E3 & E4). exists d'. split; [auto|]. split; [auto|]. split; congruence.
  - intros E. eapply IH; eauto.
Qed.

Lemma distinct_sets_elim {N} {C : EstClass N} (sts : list (nat * universe C)) :
  distinct_sets sts -> forall a b, In a sts -> In b sts -> same_names (u_keys (snd a)) (u_keys (snd b)) -> a = b.
Proof.
  induction 1 as [|a l H HH IH]; intros x y; [intros []|]. rewrite Forall_forall in H.
  intros [<-|Hx] [<-|Hy] S; auto.
  - exfalso. specialize (H y Hy). apply not_true_iff_false in H. apply H. now apply set_eq_iff.
  - exfalso. specialize (H x Hx). apply not_true_iff_false in H. apply H. apply set_eq_iff. intros k. symmetry. apply S.
Qed.

(** ** C53 *)
(** In every history -- updates that raise included, and whatever the caller does with the prototype
    in between -- at most [max_universes] universes are live and no two of them have the same set of
    names. *)
Theorem C53_at_most_max_universes :
  forall (N : Num) (C : EstClass N) fac extra mu ms d0 (proto p' : inst C) evs d rs,
    dynamic_new fac extra mu ms = Ok d0 -> (0 <= mu)%Z ->
    run_world proto (ADynamic d0) evs = (p', ADynamic d, rs) ->
    (Z.of_nat (length (dy_states d)) <= mu)%Z /\ NoDup (map fst (dy_states d)) /\
    forall i u j v, In (i, u) (dy_states d) -> In (j, v) (dy_states d) ->
      same_names (u_keys u) (u_keys v) -> i = j /\ u = v.
Proof.
  intros N C fac extra mu ms d0 proto p' evs d rs E0 Hmu Hrun.
  destruct (dynamic_new_inv _ _ _ _ _ E0) as [I0 E]. destruct (run_world_inv _ _ _ _ _ _ I0 Hrun) as (d' & [= <-] & Id & Em & _).
  rewrite E in Em. cbn in Em. destruct Id as [Hl Hs Hi _ _]. rewrite Em in Hl. split; [lia|]. split; [exact Hi|].
  intros i u j v Hu Hv S. pose proof (distinct_sets_elim _ Hs (i, u) (j, v) Hu Hv S) as [= -> ->]. auto.
Qed.

(** After an update that did not raise, no live universe has been idle for more than [max_staleness]. *)
Theorem C53_no_stale_universe :
  forall (N : Num) (C : EstClass N) (proto : inst C) d x d' i u,
    (0 <= dy_max_staleness d)%Z ->
    dynamic_update proto d x = (d', Ok tt) -> In (i, u) (dy_states d') ->
    (Z.of_nat (u_stale u) <= dy_max_staleness d)%Z.
Proof.
  intros N C proto d x d' i u Hms E Hin. destruct (dynamic_update_ok _ _ _ _ E) as (sts1 & _ & D).
  assert (K : In (i, u) (kept d sts1) -> (Z.of_nat (u_stale u) <= dy_max_staleness d)%Z).
  { intros H. apply filter_In in H. destruct H as [_ H]. cbn [snd] in H. apply negb_true_iff in H. apply Z.ltb_ge in H. exact H. }
  destruct D as [(_ & SS & _)|(_ & fr & Fr & SS & _)]; rewrite SS in Hin; [auto|].
  apply evicted_incl in Hin. apply in_app_or in Hin. destruct Hin as [Hin|[[= <- <-]|[]]]; [auto|].
  apply universe_update_ok in Fr. destruct Fr as (-> & _). exact Hms.
Qed.

(** A universe that disappears in an update was either idle for more than [max_staleness] updates, or
    there was no room and it was the one idle longest, shortest-lived among those. *)
Theorem C53_dropped_only_when_stale_or_full :
  forall (N : Num) (C : EstClass N) fac extra mu ms d0 (proto p' : inst C) evs d rs x d' i u,
    dynamic_new fac extra mu ms = Ok d0 ->
    run_world proto (ADynamic d0) evs = (p', ADynamic d, rs) ->
    dynamic_update proto d x = (d', Ok tt) -> In (i, u) (dy_states d) -> ~ live d' i ->
    let stale' := if contains_all (u_keys u) x then 0 else S (u_stale u) in
    let long' := if contains_all (u_keys u) x then S (u_long u) else u_long u in
    (ms < Z.of_nat stale')%Z \/
    (Z.of_nat (length (dy_states d')) >= mu)%Z /\
    (forall j v, In (j, v) (dy_states d') -> u_stale v <= stale' /\ (u_stale v = stale' -> long' <= u_long v)).
Proof.
  intros N C fac extra mu ms d0 proto p' evs d rs x d' i u E0 Hrun E Hin Hnl stale' long'.
  destruct (dynamic_new_inv _ _ _ _ _ E0) as [I0 Ed]. destruct (run_world_inv _ _ _ _ _ _ I0 Hrun) as (d'' & [= <-] & Id & Em & Es).
  rewrite Ed in Em, Es. cbn in Em, Es. clear E0 Hrun I0 Ed d0.
  destruct (dynamic_update_ok _ _ _ _ E) as (sts1 & F & D).
  assert (U : exists u', In (i, u') sts1 /\ u_stale u' = stale' /\ u_long u' = long').
  { assert (T : exists u', In (i, u') sts1 /\ touched x u u').
    { clear -F Hin. induction F as [|[j v] [j' v'] l l' [H1 H2] F IHF]; [destruct Hin|]. simpl in *.
      destruct Hin as [[= -> ->]|H]; [subst j'; eauto|]. destruct (IHF H) as (w & A & B). eauto. }
    destruct T as (u' & H1 & T). exists u'. split; [exact H1|]. unfold stale', long'. rewrite contains_all_subset.
    unfold touched in T. destruct (subset _ _); [apply universe_update_ok in T; destruct T as (A & B & _); auto|subst u'; auto]. }
  destruct U as (u' & Hu' & Us & Ul).
  destruct (Z.ltb_spec (dy_max_staleness d) (Z.of_nat (u_stale u'))) as [Hlt|Hge]; [left; rewrite <- Es; congruence|].
  assert (Hk : In (i, u') (kept d sts1)).
  { apply filter_In. split; [exact Hu'|]. cbn [snd]. apply negb_true_iff, Z.ltb_ge. exact Hge. }
  assert (NotIn : ~ In (i, u') (dy_states d')) by (intros H; apply Hnl; unfold live; apply in_map_iff; exists (i, u'); auto).
  right. destruct D as [(_ & SS & _)|(_ & fr & Fr & SS & _)]; [rewrite SS in NotIn; contradiction|].
  rewrite SS in *. unfold evicted in *. rewrite Em in *.
  set (sts3 := kept d sts1 ++ [(dy_counter d, fr)]) in *.
  assert (H3 : In (i, u') sts3) by (apply in_or_app; now left).
  destruct (Z.ltb_spec mu (Z.of_nat (length sts3))) as [Hlt|_]; [|contradiction].
  destruct sts3 as [|kv rest] eqn:E3; [destruct H3|].
  (* identifiers are distinct, so exactly the victim goes *)
  assert (ND : NoDup (map fst (kv :: rest))).
  { rewrite <- E3. unfold sts3. rewrite map_app. simpl. destruct Id as [_ _ Hi Hc _].
    assert (M1 : map fst sts1 = map fst (dy_states d)).
    { clear -F. induction F as [|a b l l' [H1 _] F IHF]; simpl; congruence. }
    apply NoDup_app_snoc.
    - apply NoDup_map_filter. now rewrite M1.
    - intros H. assert (H' : In (dy_counter d) (map fst (dy_states d))).
      { rewrite <- M1. apply in_map_iff in H. destruct H as (w & W1 & W2). apply filter_In in W2. rewrite <- W1. now apply in_map. }
      apply in_map_iff in H'. destruct H' as (w & W1 & W2). rewrite Forall_forall in Hc. specialize (Hc _ W2). lia. }
  pose proof (first_victim_in kv rest) as FV. pose proof (first_victim_min kv rest) as FM.
  set (vic := first_victim kv rest) in *.
  assert (Vi : vic = (i, u')).
  { destruct (Nat.eq_dec (fst vic) i) as [Ei|Ei].
    - clear -ND FV H3 Ei. revert ND FV H3. generalize (kv :: rest). intros l ND.
      induction l as [|a l IH]; [intros []|]. simpl in ND. inversion ND as [|? ? Hn ND']; subst.
      intros [->|H1] [H2|H2]; auto.
      + exfalso. apply Hn. apply in_map_iff. exists (fst vic, u'). auto.
      + exfalso. apply Hn. rewrite H2. cbn [fst]. now apply in_map.
    - exfalso. apply NotIn. apply filter_In. split; [exact H3|]. cbn [fst]. apply negb_true_iff, Nat.eqb_neq. auto. }
  split.
  - (* one is removed from more than mu *)
    assert (LD : S (length (del_key (fst vic) (kv :: rest))) >= length (kv :: rest)).
    { clear -ND. revert ND. generalize (kv :: rest). intros l. induction l as [|a l IH]; intros ND; [simpl; lia|].
      simpl in ND. inversion ND as [|? ? Hn ND']; subst. unfold del_key in *. cbn [filter]. destruct (Nat.eqb_spec (fst a) (fst vic)) as [Ea|Ea].
      - simpl negb. cbv iota. replace (filter _ l) with l; [simpl; lia|]. symmetry. apply forallb_filter_id. apply forallb_forall.
        intros b Hb. apply negb_true_iff, Nat.eqb_neq. intros Eb. apply Hn. rewrite Ea, <- Eb. now apply in_map.
      - simpl. specialize (IH ND'). lia. }
    lia.
  - intros j v Hv. unfold del_key in Hv. apply filter_In in Hv. destruct Hv as [Hv _]. specialize (FM _ Hv).
    rewrite Vi in FM. cbn [snd] in FM. rewrite <- Us, <- Ul. revert FM. unfold evict_before.
    rewrite orb_false_iff, andb_false_iff, Nat.eqb_neq, !Nat.ltb_ge. lia.
Qed.

(** ** C54 *)
Theorem C54_universes_are_faithful :
  forall (N : Num) (C : EstClass N) fac extra mu ms d0 (proto : inst C) h d rs i u,
    dynamic_new fac extra mu ms = Ok d0 -> run_dynamic proto d0 h = (d, rs) -> no_raise rs ->
    In (i, u) (dy_states d) ->
    exists h1 x0 h2, h = h1 ++ x0 :: h2 /\ u_keys u = obs_keys x0 /\
      (forall g g', h = g ++ g' -> (live (after proto d0 g) i <-> length h1 < length g)) /\
      let mine := filter (contains_all (u_keys u)) (x0 :: h2) in
      let positional := run (make fac proto) (feed (map (values (u_keys u)) mine)) in
      u_est u = fst positional /\ no_raise (snd positional) /\
      u_long u = length mine /\ u_stale u = idle_since (u_keys u) (x0 :: h2).
Proof.
  intros N C fac extra mu ms d0 proto h d rs i u E0 Hrun Hq Hin.
  destruct (dynamic_new_inv _ _ _ _ _ E0) as [I0 ->].
  pose proof (faithful_run proto (mkDyn fac mu ms [] None 0) h I0 eq_refl) as F. unfold after in F. rewrite Hrun in F.
  exact (F Hq i u Hin).
Qed.

(** ** C55 *)
(** The full statement "after [update(x)] there is a live universe with the names of [x]" is false:
    a fresh universe may be evicted at once.  The exact condition: *)
Theorem C55_current_key_set_tracked_iff :
  forall (N : Num) (C : EstClass N) fac extra mu ms d0 (proto p' : inst C) evs d rs x d',
    dynamic_new fac extra mu ms = Ok d0 -> (0 <= ms)%Z ->
    run_world proto (ADynamic d0) evs = (p', ADynamic d, rs) ->
    dynamic_update proto d x = (d', Ok tt) ->
    (* the universes that stay after the staleness check *)
    let survivors := filter (fun kv => contains_all (u_keys (snd kv)) x || Z.ltb (Z.of_nat (u_stale (snd kv))) ms)
                            (dy_states d) in
    tracks d' (obs_keys x) <->
    tracks d (obs_keys x) \/ (Z.of_nat (length survivors) < mu)%Z \/
    exists i u, In (i, u) survivors /\ ~ has_all (u_keys u) x.
Proof.
  intros N C fac extra mu ms d0 proto p' evs d rs x d' E0 Hms Hrun E survivors.
  destruct (dynamic_new_inv _ _ _ _ _ E0) as [I0 Ed]. destruct (run_world_inv _ _ _ _ _ _ I0 Hrun) as (d'' & [= <-] & Id & Em & Es).
  rewrite Ed in Em, Es. cbn in Em, Es. clear E0 Hrun I0 Ed d0.
  destruct (dynamic_update_ok _ _ _ _ E) as (sts1 & F & D). clear E.
  (* the kept ones correspond to the survivors *)
  assert (K : Forall2 (fun kv kv' => fst kv = fst kv' /\ touched x (snd kv) (snd kv')) survivors (kept d sts1)).
  { unfold survivors, kept. rewrite Es. clear D survivors. induction F as [|a b l l' [H1 H2] F IHF]; [constructor|]. simpl.
    rewrite contains_all_subset. unfold touched in H2.
    destruct (subset (u_keys (snd a)) (obs_keys x)) eqn:Esub.
    - pose proof H2 as H2'. apply universe_update_ok in H2. destruct H2 as (-> & _). cbn [orb].
      replace (ms <? Z.of_nat 0)%Z with false by (symmetry; apply Z.ltb_ge; simpl; lia). simpl negb. cbv iota.
      constructor; [split; [exact H1|unfold touched; rewrite Esub; exact H2']|exact IHF].
    - cbn [orb]. assert (Hs : u_stale (snd b) = S (u_stale (snd a))) by (now rewrite H2).
      rewrite Hs. destruct (Z.ltb_spec (Z.of_nat (u_stale (snd a))) ms);
        destruct (Z.ltb_spec ms (Z.of_nat (S (u_stale (snd a))))); try lia; [|exact IHF].
      simpl negb. cbv iota. constructor; [split; [exact H1|unfold touched; rewrite Esub; exact H2]|exact IHF]. }
  assert (Len : length survivors = length (kept d sts1)) by (clear -K; induction K; simpl; congruence).
  (* the key-set of x was live iff it is among the kept ones *)
  assert (TK : existsb (fun kv => set_eq (obs_keys x) (u_keys (snd kv))) (kept d sts1) = true <-> tracks d (obs_keys x)).
  { rewrite existsb_exists. split.
    - intros ([j v] & Hj & Hs). pose proof (proj1 (set_eq_iff _ _) Hs) as Hs2; clear Hs; rename Hs2 into Hs. cbn [snd] in Hs.
      assert (X : exists u, In (j, u) survivors /\ u_keys u = u_keys v).
      { clear -K Hj. induction K as [|[a1 a2] [b1 b2] l l' [H1 H2] K IH]; [destruct Hj|]. simpl in *. destruct Hj as [[= -> ->]|H].
        - subst a1. exists a2. split; [now left|]. unfold touched in H2. destruct (subset _ _); [symmetry; now apply universe_update_ok in H2|now rewrite H2].
        - destruct (IH H) as (u & A & B). eauto. }
      destruct X as (u & Hu & Ku). exists j, u. split; [now apply filter_In in Hu|]. intros k. rewrite Ku. symmetry. apply Hs.
    - intros (j & u & Hu & Hs).
      assert (Hsv : In (j, u) survivors).
      { apply filter_In. split; [exact Hu|]. cbn [snd]. replace (contains_all (u_keys u) x) with true; [reflexivity|]. symmetry.
        apply contains_all_has. intros k Hk. now apply Hs. }
      assert (X : exists v, In (j, v) (kept d sts1) /\ u_keys v = u_keys u).
      { clear -K Hsv. induction K as [|[a1 a2] [b1 b2] l l' [H1 H2] K IH]; [destruct Hsv|]. simpl in *. destruct Hsv as [[= -> ->]|H].
        - subst b1. exists b2. split; [now left|]. unfold touched in H2. destruct (subset _ _); [now apply universe_update_ok in H2|now rewrite H2].
        - destruct (IH H) as (v & A & B). eauto. }
      destruct X as (v & Hv & Kv). exists (j, v). split; [exact Hv|]. apply set_eq_iff. cbn [snd]. intros k. rewrite Kv. symmetry. apply Hs. }
  destruct D as [(Ex & SS & _)|(Ex & fr & Fr & SS & _)].
  - (* already live *)
    split; [left; now apply TK|]. intros _. apply existsb_exists in Ex. destruct Ex as ([j v] & Hj & Hs). cbn [snd] in Hs.
    exists j, v. split; [rewrite SS; exact Hj|]. intros k. symmetry. revert k. now apply set_eq_iff.
  - assert (NT : ~ tracks d (obs_keys x)) by (rewrite <- TK, Ex; discriminate).
    apply universe_update_ok in Fr. destruct Fr as (F1 & F2 & F3). cbn [universe_new u_keys u_long] in F2, F3.
    set (sts3 := kept d sts1 ++ [(dy_counter d, fr)]) in *.
    (* tracked afterwards iff the fresh one is still there *)
    assert (TF : tracks d' (obs_keys x) <-> In (dy_counter d, fr) (dy_states d')).
    { split.
      - intros (j & v & Hv & Hs). rewrite SS in Hv |- *. pose proof (evicted_incl _ _ _ Hv) as Hv3.
        apply in_app_or in Hv3. destruct Hv3 as [H|[H|[]]].
        + exfalso. apply not_true_iff_false in Ex. apply Ex. apply existsb_exists. exists (j, v). split; [exact H|].
          apply set_eq_iff. intros k. symmetry. apply Hs.
        + rewrite H. exact Hv.
      - intros H. exists (dy_counter d), fr. split; [exact H|]. rewrite F3. tauto. }
    rewrite TF, SS. unfold evicted. rewrite Em.
    assert (L3 : length sts3 = S (length survivors)) by (unfold sts3; rewrite app_length, Len; simpl; lia).
    assert (Fin : In (dy_counter d, fr) sts3) by (apply in_or_app; right; now left).
    destruct (Z.ltb_spec mu (Z.of_nat (length sts3))) as [Hlt|Hge].
    2:{ split; [intros _; right; left; lia|auto]. }
    (* no room: the fresh universe survives iff somebody else is stale *)
    assert (Kst : forall kv, In kv (kept d sts1) -> (u_stale (snd kv) = 0 /\ 2 <= u_long (snd kv)) \/ 1 <= u_stale (snd kv)).
    { intros [j v] Hv. apply filter_In in Hv. destruct Hv as [Hv _]. cbn [snd]. destruct Id as [_ _ _ _ Hg]. clear -F Hv Hg.
      induction F as [|[a1 a2] [b1 b2] l l' [H1 H2] F IH]; [destruct Hv|]. simpl in *. inversion Hg; subst.
      destruct Hv as [[= -> ->]|H]; [|now apply IH]. unfold touched in H2. simpl in *. destruct (subset _ _).
      - apply universe_update_ok in H2. destruct H2 as (-> & -> & _). left. split; [reflexivity|lia].
      - right. rewrite H2. simpl. lia. }
    assert (St : (exists i u, In (i, u) survivors /\ ~ has_all (u_keys u) x) <-> exists kv, In kv (kept d sts1) /\ 1 <= u_stale (snd kv)).
    { split.
      - intros (i & u & Hu & Hn). clear -K Hu Hn. induction K as [|[a1 a2] [b1 b2] l l' [H1 H2] K IH]; [destruct Hu|]. simpl in *.
        destruct Hu as [[= -> ->]|H]; [|destruct (IH H) as (kv & A & B); eauto].
        exists (b1, b2). split; [now left|]. unfold touched in H2. destruct (subset (u_keys u) (obs_keys x)) eqn:Es.
        + exfalso. apply Hn. now apply contains_all_has.
        + rewrite H2. simpl. lia.
      - intros (kv & Hkv & Hst). clear -K Hkv Hst. induction K as [|[a1 a2] [b1 b2] l l' [H1 H2] K IH]; [destruct Hkv|]. simpl in *.
        destruct Hkv as [<-|H]; [|destruct (IH H) as (i & u & A & B); eauto].
        exists a1, a2. split; [now left|]. unfold touched in H2. intros Hall. apply contains_all_has in Hall. rewrite contains_all_subset in Hall.
        rewrite Hall in H2. apply universe_update_ok in H2. simpl in *. lia. }
    rewrite St.
    destruct sts3 as [|kv rest] eqn:E3; [destruct Fin|]. pose proof (first_victim_in kv rest) as FV. pose proof (first_victim_min kv rest) as FM.
    set (vic := first_victim kv rest) in *. unfold del_key. rewrite filter_In. cbn [fst]. rewrite negb_true_iff, Nat.eqb_neq.
    assert (Cnt : forall kv, In kv (kept d sts1) -> fst kv < dy_counter d).
    { intros w Hw. apply filter_In in Hw. destruct Hw as [Hw _]. destruct Id as [_ _ _ Hc _].
      assert (M1 : map fst sts1 = map fst (dy_states d)) by (clear -F; induction F as [|a b l l' [H1 _] F IHF]; simpl; congruence).
      assert (Hin : In (fst w) (map fst (dy_states d))) by (rewrite <- M1; now apply in_map).
      apply in_map_iff in Hin. destruct Hin as (z & Z1 & Z2). rewrite Forall_forall in Hc. specialize (Hc _ Z2). lia. }
    rewrite <- E3 in FV, Fin. unfold sts3 in FV. apply in_app_or in FV.
    split.
    + intros [_ Hne]. destruct FV as [FV|[FV|[]]]; [|exfalso; apply Hne; now rewrite <- FV].
      right. right. exists vic. split; [exact FV|]. assert (Hf : In (dy_counter d, fr) (kv :: rest)) by (rewrite <- E3; exact Fin).
      specialize (FM _ Hf). cbn [snd] in FM. destruct (Kst vic FV) as [[A B]|A]; [|exact A]. exfalso. revert FM. unfold evict_before.
      rewrite F1, F2, A. simpl. destruct (Nat.ltb_spec 1 (u_long (snd vic))); [discriminate|lia].
    + intros [H|[H|(w & Hw & Sw)]]; [contradiction|lia|]. split; [rewrite <- E3; exact Fin|].
      destruct FV as [FV|[FV|[]]]; [specialize (Cnt _ FV); lia|]. exfalso.
      assert (Hw' : In w (kv :: rest)) by (rewrite <- E3; apply in_or_app; now left). specialize (FM _ Hw').
      rewrite <- FV in FM. cbn [snd] in FM. revert FM. unfold evict_before. rewrite F1. destruct (Nat.ltb_spec 0 (u_stale (snd w))); [discriminate|lia].
Qed.

(** Whenever some universe is idle (or there is room) the names of [x] are tracked. *)
Theorem C55_tracked_when_room :
  forall (N : Num) (C : EstClass N) fac extra mu ms d0 (proto p' : inst C) evs d rs x d',
    dynamic_new fac extra mu ms = Ok d0 -> (0 <= ms)%Z ->
    run_world proto (ADynamic d0) evs = (p', ADynamic d, rs) ->
    dynamic_update proto d x = (d', Ok tt) ->
    (Z.of_nat (length (dy_states d)) < mu)%Z -> tracks d' (obs_keys x).
Proof.
  intros N C fac extra mu ms d0 proto p' evs d rs x d' E0 Hms Hrun E Hr.
  apply (C55_current_key_set_tracked_iff N C fac extra mu ms d0 proto p' evs d rs x d' E0 Hms Hrun E).
  right. left. eapply Z.le_lt_trans; [|exact Hr]. apply Nat2Z.inj_le. apply filter_length_le.
Qed.

(** The refuting history, for every wrapped class: [max_universes = 1], one observation of [{A}] and
    then only observations of [{A, B}].  However long this goes on, [{A, B}] is never tracked: the
    small universe is never idle and always the longer lived. *)
Theorem C55_tracking_fails_forever :
  forall (N : Num) (C : EstClass N) fac (proto : inst C) d0 (a b : N) n d rs,
    dynamic_new fac false 1 50 = Ok d0 ->
    run_dynamic proto d0 ([("A", a)] :: repeat [("A", a); ("B", b)] n) = (d, rs) -> no_raise rs ->
    ~ tracks d ["A"; "B"].
Proof.
  intros N C fac proto d0 a b n d rs E0 Hrun Hq. apply dynamic_new_inv in E0. destruct E0 as [_ ->].
  set (x := [("A", a); ("B", b)]) in *.
  assert (Step : forall d1 d2 l o, dy_max_universes d1 = 1%Z -> dy_max_staleness d1 = 50%Z -> dy_counter d1 = S l ->
    dy_states d1 = [(0, mkU ["A"] 0 (S l) o)] -> dynamic_update proto d1 x = (d2, Ok tt) ->
    dy_max_universes d2 = 1%Z /\ dy_max_staleness d2 = 50%Z /\ dy_counter d2 = S (S l) /\
    exists o', dy_states d2 = [(0, mkU ["A"] 0 (S (S l)) o')]).
  { intros d1 d2 l o H1 H2 H3 H4. unfold dynamic_update. rewrite H1, H2, H3, H4. unfold dyn_loop.
    assert (S1 : subset (u_keys (mkU ["A"] 0 (S l) o)) (obs_keys x) = true) by reflexivity. rewrite S1.
    destruct (universe_update (mkU ["A"] 0 (S l) o) x) as [u' [[]|e]] eqn:Eu; [|discriminate].
    destruct (universe_update_ok _ _ _ Eu) as (U1 & U2 & U3). cbn [u_keys u_long] in *.
    cbn [filter snd existsb]. rewrite U1. simpl negb. cbv iota. cbn [existsb snd].
    rewrite U3. assert (S2 : set_eq (obs_keys x) ["A"] = false) by reflexivity. rewrite S2. cbn [orb].
    destruct (universe_update (universe_new (obs_keys x) (make (dy_fac d1) proto)) x) as [fr [[]|e]] eqn:Ef; [|discriminate].
    destruct (universe_update_ok _ _ _ Ef) as (V1 & V2 & V3). cbn [universe_new u_long] in *.
    intros [= <-]. cbn [dy_max_universes dy_max_staleness dy_counter dy_states]. split; [reflexivity|]. split; [reflexivity|]. split; [reflexivity|].
    cbn [app length]. change (1 <? Z.of_nat 2)%Z with true. cbv iota. cbn [first_victim snd]. unfold evict_before.
    rewrite U1, U2, V1, V2. cbn [Nat.ltb Nat.leb Nat.eqb orb andb]. unfold del_key. cbn [fst filter Nat.eqb negb].
    rewrite Nat.eqb_refl. simpl negb. cbv iota.
    exists (u_est u'). destruct u' as [k1 s1 l1 o1]. cbn in U1, U2, U3 |- *. subst. reflexivity. }
  cbn [run_dynamic] in Hrun.
  destruct (dynamic_update proto (mkDyn fac 1 50 [] None 0) [("A", a)]) as [d1 r1] eqn:E1.
  destruct (run_dynamic proto d1 (repeat x n)) as [d2 rs2] eqn:E2. injection Hrun as <- <-.
  apply Forall_inv in Hq as Hr. apply Forall_inv_tail in Hq. subst r1.
  assert (I : exists l o, dy_max_universes d1 = 1%Z /\ dy_max_staleness d1 = 50%Z /\ dy_counter d1 = S l /\ dy_states d1 = [(0, mkU ["A"] 0 (S l) o)]).
  { revert E1. unfold dynamic_update. cbn [dy_states dyn_loop filter existsb dy_fac].
    destruct (universe_update _ _) as [fr [[]|e]] eqn:Ef; [|discriminate].
    destruct (universe_update_ok _ _ _ Ef) as (V1 & V2 & V3). cbn [universe_new u_long u_keys] in *. intros [= <-].
    exists 0, (u_est fr). destruct fr as [k1 s1 l1 o1]. cbn in V1, V2, V3 |- *. subst. repeat split; reflexivity. }
  assert (J : forall n d1 d2 rs, (exists l o, dy_max_universes d1 = 1%Z /\ dy_max_staleness d1 = 50%Z /\ dy_counter d1 = S l /\ dy_states d1 = [(0, mkU ["A"] 0 (S l) o)]) ->
     run_dynamic proto d1 (repeat x n) = (d2, rs) -> no_raise rs ->
     exists l o, dy_states d2 = [(0, mkU ["A"] 0 (S l) o)]).
  { clear -Step. induction n as [|n IH]; intros d1 d2 rs (l & o & H1 & H2 & H3 & H4); cbn [repeat run_dynamic].
    - intros [= <- <-] _. eauto.
    - destruct (dynamic_update proto d1 x) as [d3 r3] eqn:E3. destruct (run_dynamic proto d3 (repeat x n)) as [d4 rs4] eqn:E4.
      intros [= <- <-] Hq. apply Forall_inv in Hq as Hr. apply Forall_inv_tail in Hq. subst r3.
      destruct (Step d1 d3 l o H1 H2 H3 H4 E3) as (A & B & D & o' & F). eapply IH; eauto 8. }
  destruct (J n d1 d2 rs2 I E2 Hq) as (l & o & HS). intros (i & u & Hin & Hs). rewrite HS in Hin.
  destruct Hin as [[= <- <-]|[]]. cbn [u_keys] in Hs. assert (HB : In "B" ["A"]) by (apply Hs; simpl; auto).
  simpl in HB. intuition discriminate.
Qed.

(** Non-vacuity: names enter and leave, nothing raises, two universes are live at the end; and the
    refuting history really does not raise. *)
Example Dyn_example : forall (N : Num) (a b c : N),
  let fac := ByClass (C := Empirical (N := N)) (mkEmpP false) in
  let proto := new (C := Empirical (N := N)) (mkEmpP false) in
  exists d0, dynamic_new fac false 10 50 = Ok d0 /\
  let h := [[("A", a); ("B", b)]; [("B", b); ("C", c)]; [("A", c); ("B", a); ("C", b)]] in
  no_raise (snd (run_dynamic proto d0 h)) /\
  map (fun kv => (fst kv, u_keys (snd kv), u_stale (snd kv), u_long (snd kv))) (dy_states (fst (run_dynamic proto d0 h))) =
    [(0, ["A"; "B"], 0, 2); (1, ["B"; "C"], 0, 2); (2, ["A"; "B"; "C"], 0, 1)] /\
  no_raise (snd (run_dynamic proto (mkDyn fac 1 50 [] None 0) ([("A", a)] :: repeat [("A", a); ("B", b)] 3))).
Proof.
  intros. eexists. split; [reflexivity|]. split; [repeat constructor|]. split; [reflexivity|repeat constructor].
Qed.

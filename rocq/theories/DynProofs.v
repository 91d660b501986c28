(** * Facts about DynamicUniverse (used by Props_Dyn) *)
From Coq Require Import ZArith Bool String List Lia Arith.
From Verif Require Import Num Numpy PyVal LinalgModel BaseModel KeyedModel Spec KeyedSpec ListLemmas BaseProofs KeyedProofs.
Import ListNotations.
Local Open Scope list_scope.

Section Dyn.
  Context {N : Num} {C : EstClass N}.
  Notation inst := (inst C).
  Notation universe := (universe C).
  Notation dynamic := (dynamic C).
  Notation obs := (obs N).

  (** what one observation does to one universe *)
  Definition touched (x : obs) (u u' : universe) : Prop :=
    if subset (u_keys u) (obs_keys x) then universe_update u x = (u', Ok tt)
    else u' = mkU (u_keys u) (S (u_stale u)) (u_long u) (u_est u).

  Lemma universe_update_keys (u : universe) x : u_keys (fst (universe_update u x)) = u_keys u.
  Proof.
    unfold universe_update. destruct (mapM _ _) as [y|e]; [|reflexivity].
    destruct (partial_fit _ _) as [o [[]|e]]; reflexivity.
  Qed.
  Lemma universe_update_long (u : universe) x : u_long u <= u_long (fst (universe_update u x)).
  Proof.
    unfold universe_update. destruct (mapM _ _) as [y|e]; [|simpl; lia].
    destruct (partial_fit _ _) as [o [[]|e]]; simpl; lia.
  Qed.
  Lemma universe_update_ok (u u' : universe) x : universe_update u x = (u', Ok tt) ->
    u_stale u' = 0 /\ u_long u' = S (u_long u) /\ u_keys u' = u_keys u.
  Proof.
    unfold universe_update. destruct (mapM _ _) as [y|e]; [|discriminate].
    destruct (partial_fit _ _) as [o [[]|e]]; intros [= <-]; auto.
  Qed.

  Definition same_slot (kv kv' : nat * universe) : Prop :=
    fst kv = fst kv' /\ u_keys (snd kv) = u_keys (snd kv') /\ u_long (snd kv) <= u_long (snd kv').

  Lemma dyn_loop_slots x sts : Forall2 same_slot sts (fst (dyn_loop x sts)).
  Proof.
    assert (R : forall l : list (nat * universe), Forall2 same_slot l l).
    { induction l as [|a l IH]; constructor; auto. unfold same_slot; auto. }
    induction sts as [|[i u] sts IH]; [constructor|]. cbn [dyn_loop].
    destruct (subset (u_keys u) (obs_keys x)).
    - pose proof (universe_update_keys u x) as K. pose proof (universe_update_long u x) as G.
      destruct (universe_update u x) as [u' [[]|e]]; cbn [fst] in *.
      + destruct (dyn_loop x sts) as [r o]. cbn [fst] in *. constructor; [|exact IH]. unfold same_slot; auto.
      + constructor; [unfold same_slot; auto|apply R].
    - destruct (dyn_loop x sts) as [r o]. cbn [fst] in *. constructor; [|exact IH]. unfold same_slot; auto.
  Qed.

  Lemma dyn_loop_ok x sts sts1 : dyn_loop x sts = (sts1, Ok tt) ->
    Forall2 (fun kv kv' => fst kv = fst kv' /\ touched x (snd kv) (snd kv')) sts sts1.
  Proof.
    revert sts1. induction sts as [|[i u] sts IH]; intros sts1; cbn [dyn_loop].
    - intros [= <-]. constructor.
    - destruct (subset (u_keys u) (obs_keys x)) eqn:Es.
      + destruct (universe_update u x) as [u' [[]|e]] eqn:Eu; [|discriminate].
        destruct (dyn_loop x sts) as [r o]. intros [= <- ->]. constructor; [|now apply IH].
        split; [reflexivity|]. unfold touched. simpl. now rewrite Es.
      + destruct (dyn_loop x sts) as [r o]. intros [= <- ->]. constructor; [|now apply IH].
        split; [reflexivity|]. unfold touched. simpl. now rewrite Es.
  Qed.

  (** the victim is a minimal element, the first of them *)
  Lemma evict_before_irrefl (a : universe) : evict_before a a = false.
  Proof. unfold evict_before. now rewrite !Nat.ltb_irrefl, andb_false_r. Qed.
  Lemma first_victim_in b l : In (first_victim b l) (b :: l : list (nat * universe)).
  Proof.
    revert b. induction l as [|kv l IH]; intros b; [now left|]. cbn [first_victim].
    destruct (evict_before (snd kv) (snd b)).
    - destruct (IH kv) as [H|H]; [right; left; auto|right; right; auto].
    - destruct (IH b) as [H|H]; [left; auto|right; right; auto].
  Qed.
  Lemma first_victim_min b l kv : In kv (b :: l : list (nat * universe)) ->
    evict_before (snd kv) (snd (first_victim b l)) = false.
  Proof.
    assert (G : forall (l : list (nat * universe)) b, evict_before (snd b) (snd (first_victim b l)) = false /\
                forall kv, In kv l -> evict_before (snd kv) (snd (first_victim b l)) = false).
    { clear. induction l as [|kv l IH]; intros b; [split; [apply evict_before_irrefl|intros ? []]|].
      cbn [first_victim]. destruct (evict_before (snd kv) (snd b)) eqn:E.
      - destruct (IH kv) as [I1 I2]. split.
        + revert E I1. generalize (snd (first_victim kv l)). intros w. unfold evict_before.
          rewrite !orb_false_iff, !orb_true_iff, !andb_true_iff, !andb_false_iff, !Nat.eqb_neq, !Nat.eqb_eq, !Nat.ltb_ge, !Nat.ltb_lt. lia.
        + intros k [<-|H]; [exact I1|now apply I2].
      - destruct (IH b) as [I1 I2]. split; [exact I1|]. intros k [<-|H]; [|now apply I2].
        revert E I1. generalize (snd (first_victim b l)). intros w. unfold evict_before.
        rewrite !orb_false_iff, !andb_false_iff, !Nat.eqb_neq, !Nat.ltb_ge. lia. }
    destruct (G l b) as [G1 G2]. intros [<-|H]; auto.
  Qed.
  (** the last element is the victim only if it strictly precedes all the others *)
  Lemma first_victim_last (b : nat * universe) l kv : first_victim b (l ++ [kv]) = kv <->
    (if evict_before (snd kv) (snd (first_victim b l)) then True else first_victim b l = kv).
  Proof.
    revert b. induction l as [|a l IH]; intros b; cbn [first_victim app].
    - destruct (evict_before (snd kv) (snd b)); tauto.
    - destruct (evict_before (snd a) (snd b)); apply IH.
  Qed.

  Lemma filter_length_le {A} f (l : list A) : length (filter f l) <= length l.
  Proof. induction l as [|b l IH]; simpl; [lia|]. destruct (f b); simpl; lia. Qed.
  Lemma filter_length_lt {A} f (l : list A) a : In a l -> f a = false -> length (filter f l) < length l.
  Proof.
    induction l as [|b l IH]; [intros []|]. intros [->|H] Hf; simpl.
    - rewrite Hf. pose proof (filter_length_le f l). lia.
    - specialize (IH H Hf). destruct (f b); simpl; lia.
  Qed.

  Lemma NoDup_app_snoc {A} (l : list A) a : NoDup l -> ~ In a l -> NoDup (l ++ [a]).
  Proof.
    induction 1 as [|b l Hb Hl IH]; simpl; intros Ha; [repeat constructor; intros []|].
    constructor; [|tauto]. rewrite in_app_iff. simpl. intuition subst; tauto.
  Qed.

  (** ** The invariant of every history, exceptions included *)
  Definition distinct_sets (sts : list (nat * universe)) : Prop :=
    ForallOrdPairs (fun a b => set_eq (u_keys (snd a)) (u_keys (snd b)) = false) sts.
  Record inv (d : dynamic) : Prop := {
    inv_len : (Z.of_nat (length (dy_states d)) <= Z.max 0 (dy_max_universes d))%Z;
    inv_sets : distinct_sets (dy_states d);
    inv_ids : NoDup (map fst (dy_states d));
    inv_cnt : Forall (fun kv => fst kv < dy_counter d) (dy_states d);
    inv_long : Forall (fun kv => 1 <= u_long (snd kv)) (dy_states d);
  }.

  Lemma set_eq_sym s t : set_eq s t = set_eq t s.
  Proof. unfold set_eq. apply andb_comm. Qed.

  Lemma FOP_filter {A} (R : A -> A -> Prop) f l : ForallOrdPairs R l -> ForallOrdPairs R (filter f l).
  Proof.
    induction 1 as [|a l H HH IH]; simpl; [constructor|]. destruct (f a); [|exact IH]. constructor; [|exact IH].
    rewrite Forall_forall in *. intros b Hb. apply H. now apply filter_In in Hb.
  Qed.
  Lemma FOP_snoc {A} (R : A -> A -> Prop) l b : ForallOrdPairs R l -> Forall (fun a => R a b) l -> ForallOrdPairs R (l ++ [b]).
  Proof.
    induction 1 as [|a l H HH IH]; simpl; intros F; [repeat constructor|]. inversion F; subst.
    constructor; [|now apply IH]. apply Forall_app. split; [exact H|repeat constructor; auto].
  Qed.
  Lemma NoDup_map_filter {A B} (g : A -> B) f l : NoDup (map g l) -> NoDup (map g (filter f l)).
  Proof.
    induction l as [|a l IH]; [auto|]. simpl. intros H. inversion H; subst. destruct (f a); [|auto].
    simpl. constructor; [|auto]. intros Hin. apply H2. apply in_map_iff in Hin. destruct Hin as (b & E & Hb).
    apply filter_In in Hb. rewrite <- E. apply in_map. tauto.
  Qed.
  Lemma Forall_filter {A} (P : A -> Prop) f l : Forall P l -> Forall P (filter f l).
  Proof. rewrite !Forall_forall. intros H a Ha. apply H. now apply filter_In in Ha. Qed.

  Lemma slots_inv sts sts1 : Forall2 same_slot sts sts1 ->
    length sts1 = length sts /\ map fst sts1 = map fst sts /\
    map (fun kv => u_keys (snd kv)) sts1 = map (fun kv => u_keys (snd kv)) sts /\
    (Forall (fun kv => 1 <= u_long (snd kv)) sts -> Forall (fun kv => 1 <= u_long (snd kv)) sts1).
  Proof.
    induction 1 as [|a b sts sts1 (H1 & H2 & H3) H (I1 & I2 & I3 & I4)]; [repeat split; auto|].
    simpl. rewrite I1, I2, I3, H1, H2. repeat split; auto. intros F. inversion F; subst. constructor; [lia|auto].
  Qed.
  Lemma distinct_sets_map sts : distinct_sets sts <->
    ForallOrdPairs (fun a b => set_eq a b = false) (map (fun kv => u_keys (snd kv)) sts).
  Proof.
    unfold distinct_sets. induction sts as [|a sts IH]; simpl; [split; constructor|].
    split; intros H; inversion H; subst; constructor; try (now apply IH);
      [rewrite Forall_map|rewrite Forall_map in *]; assumption.
  Qed.

  Lemma dynamic_update_inv (proto : inst) d x : inv d -> inv (fst (dynamic_update proto d x)) /\
    dy_fac (fst (dynamic_update proto d x)) = dy_fac d /\
    dy_max_universes (fst (dynamic_update proto d x)) = dy_max_universes d /\
    dy_max_staleness (fst (dynamic_update proto d x)) = dy_max_staleness d.
  Proof.
    intros [Hl Hs Hi Hc Hg]. unfold dynamic_update. pose proof (dyn_loop_slots x (dy_states d)) as S.
    destruct (dyn_loop x (dy_states d)) as [sts1 r]. cbn [fst] in S.
    destruct (slots_inv _ _ S) as (L1 & L2 & L3 & L4).
    assert (Hs1 : distinct_sets sts1) by (apply distinct_sets_map; rewrite L3; now apply distinct_sets_map).
    assert (Hi1 : NoDup (map fst sts1)) by (now rewrite L2).
    assert (Hc1 : Forall (fun kv => fst kv < dy_counter d) sts1).
    { rewrite <- (Forall_map fst (fun i => i < dy_counter d)) in *. now rewrite L2. }
    specialize (L4 Hg). clear S L2 L3 Hs Hi Hc Hg. rewrite <- L1 in Hl. clear L1.
    destruct r as [[]|e]; [|split; [constructor; auto|auto]].
    set (f := fun kv : nat * universe => negb (dy_max_staleness d <? Z.of_nat (u_stale (snd kv)))%Z).
    pose proof (filter_length_le f sts1) as FL.
    assert (Hs2 := FOP_filter _ f _ Hs1). assert (Hi2 := NoDup_map_filter fst f _ Hi1).
    assert (Hc2 := Forall_filter _ f _ Hc1). assert (Hg2 := Forall_filter _ f _ L4).
    set (sts2 := filter f sts1) in *. clearbody sts2.
    destruct (existsb _ sts2) eqn:Ex.
    { split; [constructor; simpl; auto; lia|auto]. }
    destruct (universe_update _ x) as [fresh [[]|e]] eqn:Ef.
    2:{ split; [constructor; simpl; auto; lia|auto]. }
    split; [|auto]. apply universe_update_ok in Ef. destruct Ef as (F1 & F2 & F3). cbn [universe_new u_keys u_long] in F2, F3.
    set (sts3 := sts2 ++ [(dy_counter d, fresh)]).
    assert (Hs3 : distinct_sets sts3).
    { apply FOP_snoc; [exact Hs2|]. apply Forall_forall. intros kv Hkv. simpl. rewrite F3.
      destruct (set_eq (u_keys (snd kv)) (obs_keys x)) eqn:E; [|reflexivity]. exfalso.
      rewrite set_eq_sym in E. rewrite <- not_true_iff_false in Ex. apply Ex. apply existsb_exists. eauto. }
    assert (Hi3 : NoDup (map fst sts3)).
    { unfold sts3. rewrite map_app. simpl. apply NoDup_app_snoc; [exact Hi2|]. intros Hin. apply in_map_iff in Hin.
      destruct Hin as (kv & E & Hkv). rewrite Forall_forall in Hc2. specialize (Hc2 kv Hkv). simpl in E. lia. }
    assert (Hc3 : Forall (fun kv => fst kv < S (dy_counter d)) sts3).
    { apply Forall_app. split; [|repeat constructor]. eapply Forall_impl; [|exact Hc2]. simpl. intros; lia. }
    assert (Hg3 : Forall (fun kv => 1 <= u_long (snd kv)) sts3).
    { apply Forall_app. split; [exact Hg2|]. constructor; [|constructor]. simpl. lia. }
    assert (L3 : length sts3 = S (length sts2)) by (unfold sts3; rewrite app_length; simpl; lia).
    destruct (Z.ltb_spec (dy_max_universes d) (Z.of_nat (length sts3))) as [Hlt|Hge].
    2:{ constructor; simpl; auto; lia. }
    destruct sts3 as [|kv rest] eqn:E3; [simpl in L3; lia|].
    assert (FV := first_victim_in kv rest).
    assert (DL : length (del_key (fst (first_victim kv rest)) (kv :: rest)) < length (kv :: rest)).
    { unfold del_key. apply (filter_length_lt _ _ (first_victim kv rest) FV). now rewrite Nat.eqb_refl. }
    constructor; cbn [fst dy_states dy_max_universes dy_counter].
    - revert DL L3 Hl FL; generalize (length (del_key (fst (first_victim kv rest)) (kv :: rest))) (length (kv :: rest)); intros; lia.
    - now apply FOP_filter.
    - now apply NoDup_map_filter.
    - now apply Forall_filter.
    - now apply Forall_filter.
  Qed.

  Lemma dynamic_new_inv f extra mu ms d : dynamic_new f extra mu ms = Ok d ->
    inv d /\ d = mkDyn f mu ms [] None 0.
  Proof.
    unfold dynamic_new. destruct f; simpl; [intros [= <-]|destruct extra; [discriminate|intros [= <-]]];
      (split; [constructor; simpl; try constructor; lia|reflexivity]).
  Qed.
End Dyn.

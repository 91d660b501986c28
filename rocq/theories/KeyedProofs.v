(** * Lemmas about the keyed adapters *)
From Coq Require Import ZArith Bool String List Lia Arith.
From Verif Require Import Num Numpy PyVal LinalgModel BaseModel KeyedModel Spec KeyedSpec ListLemmas.
Import ListNotations.
Local Open Scope string_scope.
Local Open Scope list_scope.

Lemma mem_In k l : mem k l = true <-> In k l.
Proof.
  unfold mem. rewrite existsb_exists. split.
  - intros (y & Hy & E). apply String.eqb_eq in E. now subst.
  - intros H. exists k. split; [auto|apply String.eqb_refl].
Qed.
Lemma subset_incl s t : subset s t = true <-> incl s t.
Proof.
  unfold subset. rewrite forallb_forall. unfold incl. split; intros H k Hk; apply mem_In; auto.
Qed.
Lemma set_eq_iff s t : set_eq s t = true <-> (forall k, In k s <-> In k t).
Proof.
  unfold set_eq. rewrite andb_true_iff, !subset_incl. unfold incl. split; [intros [A B] k; split; auto|].
  intros H; split; intros k Hk; apply H; auto.
Qed.
Lemma dget_In {A} k (d : list (string * A)) : (exists v, dget k d = Some v) <-> In k (map fst d).
Proof.
  induction d as [|[k' v'] d IH]; simpl; [split; [intros [v H]; discriminate|tauto]|].
  destruct (String.eqb_spec k k') as [->|Hn].
  - split; eauto.
  - rewrite IH. split; [auto|]. intros [E|H]; [congruence|auto].
Qed.
Lemma dget_None {A} k (d : list (string * A)) : dget k d = None <-> ~ In k (map fst d).
Proof.
  rewrite <- dget_In. destruct (dget k d); split; intros H; try congruence; try (intros [v E]; discriminate).
  exfalso. apply H. eauto.
Qed.
Lemma list_set_app {A} (v : A) pre c cur : list_set (length pre) v (pre ++ c :: cur) = (pre ++ v :: cur)%list.
Proof. induction pre; simpl; congruence. Qed.
Lemma strs_eqb_eq a b : strs_eqb a b = true <-> a = b.
Proof.
  revert b. induction a as [|x a IH]; intros [|y b]; simpl; split; intros H; try congruence; try discriminate.
  - apply andb_true_iff in H as [E H]. apply String.eqb_eq in E. apply IH in H. congruence.
  - injection H as -> ->. apply andb_true_iff. split; [apply String.eqb_refl|now apply IH].
Qed.
Lemma index_of_ok k l : In k l -> exists i, index_of k l = Ok i /\ nth_error l i = Some k.
Proof.
  induction l as [|k' l IH]; simpl; [tauto|]. destruct (String.eqb_spec k k') as [->|Hn].
  - exists 0. auto.
  - intros [E|H]; [congruence|]. destruct (IH H) as (i & -> & Hi). exists (S i). auto.
Qed.
Lemma index_of_err k l : ~ In k l -> index_of k l = Err ValueError.
Proof.
  induction l as [|k' l IH]; simpl; [auto|]. intros H. destruct (String.eqb_spec k k') as [->|Hn]; [tauto|].
  now rewrite IH by tauto.
Qed.
Lemma index_of_first k l i : index_of k l = Ok i -> nth_error l i = Some k /\ forall j, j < i -> nth_error l j <> Some k.
Proof.
  revert i. induction l as [|k' l IH]; simpl; [discriminate|]. intros i. destruct (String.eqb_spec k k') as [->|Hn].
  - intros [= <-]. split; [auto|lia].
  - destruct (index_of k l) as [j|e]; simpl; [|discriminate]. intros [= <-].
    destruct (IH j eq_refl) as [A B]. split; [auto|].
    intros [|j'] Hj; simpl; [congruence|]. apply B. lia.
Qed.
Lemma NoDup_nth_error' (l : list string) i j k :
  NoDup l -> nth_error l i = Some k -> nth_error l j = Some k -> i = j.
Proof.
  intros H Hi Hj. apply (proj1 (NoDup_nth_error l) H).
  - apply nth_error_Some. congruence.
  - congruence.
Qed.
Lemma index_of_nodup k l i : NoDup l -> nth_error l i = Some k -> index_of k l = Ok i.
Proof.
  intros H Hi. destruct (index_of_ok k l) as (j & E & Hj); [eapply nth_error_In; eauto|].
  rewrite E. f_equal. eapply NoDup_nth_error'; eauto.
Qed.
Lemma last_index_nodup k l i : NoDup l -> nth_error l i = Some k -> last_index k l = Ok i.
Proof.
  revert i. induction l as [|k' l IH]; intros i H Hi; [destruct i; discriminate|].
  inversion H as [|? ? H1 H2]; subst. destruct i as [|i]; simpl in *.
  - injection Hi as ->. rewrite String.eqb_refl.
    destruct (last_index k l) as [j|e] eqn:E; [|auto]. exfalso. apply H1.
    clear -E. revert j E. induction l as [|x l IH]; intros j E; [discriminate|]. simpl in E.
    destruct (last_index k l) as [j'|e] eqn:E'; [right; eapply IH; eauto|].
    destruct (String.eqb_spec k x); [left; auto|discriminate].
  - now rewrite (IH i H2 Hi).
Qed.

Section FixedProofs.
  Context {N : Num} {C : EstClass N}.
  Notation obs := (obs N).
  Notation inst := (inst C).

  Definition comp (x : obs) (k : string) (l : N) : N := match dget k x with Some v => v | None => l end.

  Lemma seen_iff k (h : list obs) : existsb (fun y => mem k (obs_keys y)) h = true <-> exists x, In x h /\ In k (obs_keys x).
  Proof.
    rewrite existsb_exists. split; intros (x & Hx & H); exists x; split; auto; now apply mem_In.
  Qed.
  Lemma last_seen_never k (h : list obs) : existsb (fun y => mem k (obs_keys y)) h = false -> last_seen k h = n0.
  Proof.
    induction h as [|x h IH]; [auto|]. cbn [existsb last_seen]. intros H. apply orb_false_iff in H as [H1 H2].
    rewrite H2. destruct (dget k x) eqn:E; [|auto].
    exfalso. assert (In k (obs_keys x)) as K by (apply dget_In; eauto).
    apply mem_In in K. congruence.
  Qed.
  Lemma last_seen_snoc k (h : list obs) x : last_seen k (h ++ [x])%list = comp x k (last_seen k h).
  Proof.
    unfold comp. induction h as [|y h IH]; [simpl; destruct (dget k x); auto|].
    cbn [app last_seen]. rewrite existsb_app. cbn [existsb]. rewrite orb_false_r.
    destruct (dget k x) as [v|] eqn:E.
    - assert (mem k (obs_keys x) = true) as -> by (apply mem_In, dget_In; eauto).
      rewrite orb_true_r. exact IH.
    - assert (mem k (obs_keys x) = false) as ->.
      { destruct (mem k (obs_keys x)) eqn:M; [|auto]. apply mem_In in M. apply dget_None in E. contradiction. }
      rewrite orb_false_r. rewrite IH. auto.
  Qed.

  (** What the loop produces when every missing value can be computed. *)
  Fixpoint fillz (x : obs) (g : nat -> N -> N) (i : nat) (ks : list string) (cur : vec N) : vec N :=
    match ks, cur with
    | k :: ks', l :: cur' =>
      (match dget k x with Some v => v | None => g i l end) :: fillz x g (S i) ks' cur'
    | _, _ => []
    end.

  Lemma fx_loop_ok (est : inst) impute x (g : nat -> N -> N) ks : forall pre cur,
    length cur = length ks ->
    (forall j l, length pre <= j < length pre + length ks -> fx_missing est impute j l = Ok (g j (nth j l n0))) ->
    fx_loop est impute x (length pre) ks (pre ++ cur)%list =
    ((pre ++ zipw (comp x) ks cur)%list, Ok (fillz x g (length pre) ks cur)).
  Proof.
    induction ks as [|k ks IH]; intros pre cur Hl Hm.
    - destruct cur; [|discriminate]. reflexivity.
    - destruct cur as [|c cur]; [discriminate|]. injection Hl as Hl. cbn [fx_loop zipw fillz].
      assert (E : forall v, (pre ++ v :: cur = (pre ++ [v]) ++ cur)%list) by (intros; now rewrite <- app_assoc).
      assert (Ln : forall v : N, length (pre ++ [v]) = S (length pre)) by (intros; rewrite app_length; simpl; lia).
      unfold comp at 1. destruct (dget k x) as [v|] eqn:Ek.
      + rewrite list_set_app, E, <- (Ln v), IH; auto.
        * now rewrite <- app_assoc.
        * intros j l Hj. rewrite Ln in Hj. apply Hm. simpl. lia.
      + rewrite Hm by (simpl; lia). rewrite nth_middle. rewrite E, <- (Ln c), IH; auto.
        * now rewrite <- app_assoc.
        * intros j l Hj. rewrite Ln in Hj. apply Hm. simpl. lia.
  Qed.

  Lemma fillz_id x i ks cur : fillz x (fun _ l => l) i ks cur = zipw (comp x) ks cur.
  Proof. revert i cur. induction ks; intros i [|c cur]; simpl; auto. now rewrite IHks. Qed.
  Lemma fillz_all x g i ks cur : has_all ks x -> length cur = length ks -> fillz x g i ks cur = values ks x.
  Proof.
    revert i cur. induction ks as [|k ks IH]; intros i [|c cur] H Hl; try discriminate; [auto|].
    simpl. destruct (dget k x) as [v|] eqn:E.
    - f_equal. apply IH; [|simpl in Hl; lia]. intros j Hj. apply H. now right.
    - exfalso. apply dget_None in E. apply E, H. now left.
  Qed.
  Lemma fillz_const x v i ks cur : length cur = length ks ->
    fillz x (fun _ _ => v) i ks cur = map (fun k => comp x k v) ks.
  Proof.
    revert i cur. induction ks as [|k ks IH]; intros i [|c cur] H; try discriminate; [auto|].
    simpl. f_equal. apply IH. simpl in H. lia.
  Qed.
  Lemma fillz_nth x g i ks cur j k : length cur = length ks -> nth_error ks j = Some k ->
    nth_error (fillz x g i ks cur) j = Some (match dget k x with Some v => v | None => g (i + j) (nth j cur n0) end).
  Proof.
    revert i cur j. induction ks as [|k' ks IH]; intros i [|c cur] j Hl Hj; try (destruct j; discriminate).
    destruct j as [|j]; simpl in *.
    - injection Hj as ->. now rewrite Nat.add_0_r.
    - rewrite (IH (S i) cur j) by (auto; lia). now rewrite <- plus_n_Sm.
  Qed.
  Lemma fillz_length x g i ks cur : length cur = length ks -> length (fillz x g i ks cur) = length ks.
  Proof. revert i cur. induction ks; intros i [|c cur] H; simpl in *; try discriminate; auto. Qed.

  Lemma zipw_comp_seen x ks h :
    zipw (comp x) ks (map (fun k => last_seen k h) ks) = map (fun k => last_seen k (h ++ [x])%list) ks.
  Proof. induction ks as [|k ks IH]; simpl; [auto|]. now rewrite IH, last_seen_snoc. Qed.

  Lemma zeros_seen (ks : list string) : vzeros (length ks) = map (fun k => last_seen k ([] : list obs)) ks.
  Proof.
    unfold vzeros, tab. simpl. generalize 0. induction ks; intros n; simpl; [auto|]. now rewrite (IHks (S n)).
  Qed.

  (** One update, from a state whose [_last] records the last values of [h]. *)
  Lemma fixed_update_step (proto : inst) fac keys impute core h x ks (o : inst) (last : vec N) g :
    ks = match keys with Some k => k | None => obs_keys x end ->
    match core with Some c => c | None => (make fac proto, vzeros (length ks)) end = (o, last) ->
    last = map (fun k => last_seen k h) ks ->
    (forall j l, j < length ks -> fx_missing o impute j l = Ok (g j (nth j l n0))) ->
    fixed_update proto (mkFixed fac keys impute core) x =
    (mkFixed fac (Some ks) impute (Some (fst (partial_fit o (In1 (fillz x g 0 ks last))),
                                        map (fun k => last_seen k (h ++ [x])%list) ks)),
     snd (partial_fit o (In1 (fillz x g 0 ks last)))).
  Proof.
    intros -> Hc Hl Hm. unfold fixed_update. cbn [fx_keys fx_core fx_fac fx_impute]. rewrite Hc.
    match goal with |- context [fx_loop _ _ _ 0 ?k last] => set (ks := k) in * end.
    pose proof (fx_loop_ok o impute x g ks [] last) as F. cbn [app length] in F. rewrite F.
    - replace (zipw (comp x) ks last) with (map (fun k => last_seen k (h ++ [x])) ks)
        by (rewrite Hl; symmetry; apply zipw_comp_seen).
      destruct (partial_fit o (In1 (fillz x g 0 ks last))). reflexivity.
    - subst last. now rewrite map_length.
    - intros j l Hj. apply Hm. lia.
  Qed.

  Definition seen (ks : list string) (h : list obs) : vec N := map (fun k => last_seen k h) ks.
  Lemma seen_length ks h : length (seen ks h) = length ks.
  Proof. apply map_length. Qed.

  (** The rows handed to the positional estimator, when the value of a missing key depends only on
      its position and last seen value. *)
  Fixpoint rows_of (g : nat -> N -> N) (ks : list string) (h0 h : list obs) : list (vec N) :=
    match h with
    | [] => []
    | x :: h' => fillz x g 0 ks (seen ks h0) :: rows_of g ks (h0 ++ [x]) h'
    end.

  Lemma run_fixed_from (proto : inst) fac ks impute g h : (forall (o : inst) j l, fx_missing o impute j l = Ok (g j (nth j l n0))) ->
    forall h0 (o : inst),
    run_fixed proto (mkFixed fac (Some ks) impute (Some (o, seen ks h0))) h =
    (mkFixed fac (Some ks) impute (Some (fst (run o (feed (rows_of g ks h0 h))), seen ks (h0 ++ h))),
     snd (run o (feed (rows_of g ks h0 h)))).
  Proof.
    intros Hg. induction h as [|x h IH]; intros h0 o.
    - simpl. now rewrite app_nil_r.
    - cbn [run_fixed rows_of]. rewrite (fixed_update_step proto fac (Some ks) impute (Some (o, seen ks h0)) h0 x ks o
        (seen ks h0) g) by (auto; intros; apply Hg).
      fold (seen ks (h0 ++ [x])). rewrite IH. unfold feed. cbn [map run do_call].
      fold (feed (C := C) (rows_of g ks (h0 ++ [x]) h)).
      destruct (partial_fit o (In1 (fillz x g 0 ks (seen ks h0)))) as [o' r]. cbn [fst snd].
      destruct (run o' (feed (rows_of g ks (h0 ++ [x]) h))) as [o'' rs]. cbn [fst snd].
      now rewrite <- app_assoc.
  Qed.

  Lemma run_fixed_spec (proto : inst) fac keys impute g h : (forall (o : inst) j l, fx_missing o impute j l = Ok (g j (nth j l n0))) ->
    h <> [] ->
    let ks := universe_names keys h in
    run_fixed proto (mkFixed fac keys impute None) h =
    (mkFixed fac (Some ks) impute (Some (fst (run (make fac proto) (feed (rows_of g ks [] h))), seen ks h)),
     snd (run (make fac proto) (feed (rows_of g ks [] h)))).
  Proof.
    intros Hg Hh ks. destruct h as [|x h]; [congruence|]. clear Hh. cbn [run_fixed rows_of].
    assert (Eks : ks = match keys with Some k => k | None => obs_keys x end) by (unfold ks; destruct keys; auto).
    rewrite (fixed_update_step proto fac keys impute None [] x ks (make fac proto) (seen ks []) g); auto.
    - fold (seen ks ([] ++ [x])). rewrite (run_fixed_from proto fac ks impute g h Hg). unfold feed. cbn [map run do_call].
      fold (feed (C := C) (rows_of g ks ([] ++ [x]) h)).
      destruct (partial_fit (make fac proto) (In1 (fillz x g 0 ks (seen ks [])))) as [o' r]. cbn [fst snd].
      destruct (run o' (feed (rows_of g ks ([] ++ [x]) h))) as [o'' rs]. reflexivity.
    - rewrite zeros_seen. reflexivity.
  Qed.

  Lemma rows_of_ffill ks h : forall h0,
    rows_of (fun _ l => l) ks h0 h =
    map (fun t => map (fun k => last_seen k (h0 ++ firstn (S t) h)) ks) (seq 0 (length h)).
  Proof.
    induction h as [|x h IH]; intros h0; [reflexivity|]. cbn [rows_of length seq map]. f_equal.
    - rewrite fillz_id. unfold seen. rewrite zipw_comp_seen. reflexivity.
    - rewrite IH, <- seq_shift, map_map. apply map_ext. intros t. cbn [firstn]. apply map_ext. intros k.
      now rewrite <- app_assoc.
  Qed.
  Lemma rows_of_const v ks h : forall h0, rows_of (fun _ _ => v) ks h0 h = map (fun x => map (fun k => comp x k v) ks) h.
  Proof.
    induction h as [|x h IH]; intros h0; [reflexivity|]. cbn [rows_of map]. rewrite IH, fillz_const by apply seen_length.
    reflexivity.
  Qed.
  Lemma rows_of_all g ks h : Forall (has_all ks) h -> forall h0, rows_of g ks h0 h = map (values ks) h.
  Proof.
    induction 1 as [|x h Hx H IH]; intros h0; [reflexivity|]. cbn [rows_of map].
    rewrite IH, fillz_all; auto. apply seen_length.
  Qed.

  (** The loop never leaves [_last] half-written when it succeeds. *)
  Lemma fx_loop_last (est : inst) impute x ks : forall pre cur l' y,
    length cur = length ks -> fx_loop est impute x (length pre) ks (pre ++ cur)%list = (l', Ok y) ->
    l' = (pre ++ zipw (comp x) ks cur)%list.
  Proof.
    induction ks as [|k ks IH]; intros pre cur l' y Hl H.
    - destruct cur; [|discriminate]. cbn [fx_loop zipw] in *. congruence.
    - destruct cur as [|c cur]; [discriminate|]. injection Hl as Hl. cbn [fx_loop zipw] in *.
      assert (E : forall v, (pre ++ v :: cur = (pre ++ [v]) ++ cur)%list) by (intros; now rewrite <- app_assoc).
      assert (Ln : forall v : N, length (pre ++ [v]) = S (length pre)) by (intros; rewrite app_length; simpl; lia).
      unfold comp at 1. destruct (dget k x) as [v|] eqn:Ek.
      + rewrite list_set_app, E, <- (Ln v) in H.
        destruct (fx_loop est impute x (length (pre ++ [v])) ks ((pre ++ [v]) ++ cur)) as [l2 [r|e]] eqn:F;
          simpl in H; [|discriminate]. injection H as -> _. apply IH in F; [|auto]. now rewrite F, <- app_assoc.
      + destruct (fx_missing est impute (length pre) (pre ++ c :: cur)); [|discriminate].
        rewrite E, <- (Ln c) in H.
        destruct (fx_loop est impute x (length (pre ++ [c])) ks ((pre ++ [c]) ++ cur)) as [l2 [r|e]] eqn:F;
          simpl in H; [|discriminate]. injection H as -> _. apply IH in F; [|auto]. now rewrite F, <- app_assoc.
  Qed.

  Lemma fixed_update_quiet (proto : inst) fac keys impute core h x ks (o : inst) last u' :
    ks = match keys with Some k => k | None => obs_keys x end ->
    match core with Some c => c | None => (make fac proto, vzeros (length ks)) end = (o, last) ->
    last = seen ks h ->
    fixed_update proto (mkFixed fac keys impute core) x = (u', Ok tt) ->
    exists o', u' = mkFixed fac (Some ks) impute (Some (o', seen ks (h ++ [x]))).
  Proof.
    intros -> Hc Hl. unfold fixed_update. cbn [fx_keys fx_core fx_fac fx_impute]. rewrite Hc.
    match goal with |- context [fx_loop _ _ _ 0 ?k last] => set (ks := k) in * end.
    destruct (fx_loop o impute x 0 ks last) as [l' [y|e]] eqn:F; [|discriminate].
    apply (fx_loop_last o impute x ks [] last) in F; [|subst last; apply seen_length].
    destruct (partial_fit o (In1 y)) as [o' r]. intros [= <- Hr]. exists o'.
    rewrite F. subst last. unfold seen at 1. cbn [app]. rewrite zipw_comp_seen. reflexivity.
  Qed.

  Lemma run_fixed_quiet_from (proto : inst) fac ks impute h : forall h0 o u rs,
    run_fixed proto (mkFixed fac (Some ks) impute (Some (o, seen ks h0))) h = (u, rs) -> no_raise rs ->
    exists o', u = mkFixed fac (Some ks) impute (Some (o', seen ks (h0 ++ h))).
  Proof.
    induction h as [|x h IH]; intros h0 o u rs H Hq.
    - simpl in H. injection H as <- <-. exists o. now rewrite app_nil_r.
    - cbn [run_fixed] in H.
      destruct (fixed_update proto (mkFixed fac (Some ks) impute (Some (o, seen ks h0))) x) as [u1 r1] eqn:E1.
      destruct (run_fixed proto u1 h) as [u2 r2] eqn:E2. injection H as <- <-.
      inversion Hq as [|? ? Hr1 Hr2]; subst.
      destruct (fixed_update_quiet proto fac (Some ks) impute (Some (o, seen ks h0)) h0 x ks o (seen ks h0) u1) as (o1 & ->); auto.
      destruct (IH _ _ _ _ E2 Hr2) as (o2 & ->). exists o2. now rewrite <- app_assoc.
  Qed.
  Lemma run_fixed_quiet (proto : inst) fac keys impute h u rs : h <> [] ->
    run_fixed proto (mkFixed fac keys impute None) h = (u, rs) -> no_raise rs ->
    let ks := universe_names keys h in
    exists o', u = mkFixed fac (Some ks) impute (Some (o', seen ks h)).
  Proof.
    intros Hh H Hq ks. destruct h as [|x h]; [congruence|]. clear Hh. cbn [run_fixed] in H.
    assert (Eks : ks = match keys with Some k => k | None => obs_keys x end) by (unfold ks; destruct keys; auto).
    destruct (fixed_update proto (mkFixed fac keys impute None) x) as [u1 r1] eqn:E1.
    destruct (run_fixed proto u1 h) as [u2 r2] eqn:E2. injection H as <- <-.
    inversion Hq as [|? ? Hr1 Hr2]; subst r1.
    destruct (fixed_update_quiet proto fac keys impute None [] x ks (make fac proto) (seen ks []) u1) as (o1 & ->); auto.
    { rewrite zeros_seen. reflexivity. }
    exact (run_fixed_quiet_from proto fac ks impute h _ _ _ _ E2 Hr2).
  Qed.
End FixedProofs.

(** * The matrix assembled by DynamicUniverse.cov_array *)
From Coq Require Import ZArith Bool String List Lia Arith.
From Verif Require Import Num Numpy PyVal LinalgModel BaseModel KeyedModel Spec KeyedSpec ListLemmas BaseProofs KeyedProofs.
Import ListNotations.
Local Open Scope list_scope.

Lemma list_set_tab {A} i (v : A) n f : list_set i v (tab n f) = tab n (fun a => if Nat.eqb a i then v else f a).
Proof.
  revert i f. induction n as [|n IH]; intros i f; [destruct i; reflexivity|]. rewrite !tab_S. destruct i as [|i]; cbn [list_set].
  - f_equal.
  - f_equal. rewrite IH. apply tab_ext. intros; reflexivity.
Qed.

Section Asm.
  Context {N : Num} {C : EstClass N}.
  Notation universe := (universe C).
  Notation dynamic := (dynamic C).

  Lemma mset_tab2 n (f : nat -> nat -> N) i j v : i < n ->
    mset (tab2 n n f) i j v = tab2 n n (fun a b => if Nat.eqb a i && Nat.eqb b j then v else f a b).
  Proof.
    intros Hi. unfold mset. rewrite nth_tab2 by auto. rewrite list_set_tab. unfold tab2. rewrite list_set_tab.
    apply tab_ext. intros a Ha. destruct (Nat.eqb_spec a i) as [->|E]; cbn [andb]; [|reflexivity]. apply tab_ext. reflexivity.
  Qed.

  Lemma better_iff (a b : universe) : better a b = true <-> outranks a b.
  Proof. unfold better, outranks. rewrite orb_true_iff, andb_true_iff, Nat.eqb_eq, !Nat.ltb_lt. tauto. Qed.
  Lemma best_of_is_best (b : universe) l : is_best (best_of b l) (b :: l).
  Proof.
    assert (TR : forall a b c : universe, outranks a b -> outranks b c -> outranks a c) by (unfold outranks; intros; lia).
    assert (TN : forall a b c : universe, outranks a b -> ~ outranks c b -> outranks a c) by (unfold outranks; intros; lia).
    revert b. induction l as [|u l IH]; intros b; cbn [best_of].
    - exists [], []. repeat split; constructor.
    - destruct (better u b) eqn:E.
      + apply better_iff in E. destruct (IH u) as (l1 & l2 & El & F1 & F2). revert El F1 F2. generalize (best_of u l). intros z El F1 F2. exists (b :: l1), l2.
        split; [cbn [app]; now rewrite El|]. split; [|exact F2]. constructor; [|exact F1].
        destruct l1 as [|w l1]; cbn [app] in El; injection El as E1 E2.
        * subst z. exact E.
        * subst w. inversion F1; subst. eapply TR; eauto.
      + assert (E' : ~ outranks u b) by (rewrite <- better_iff, E; discriminate).
        destruct (IH b) as (l1 & l2 & El & F1 & F2). revert El F1 F2. generalize (best_of b l). intros z El F1 F2. destruct l1 as [|w l1]; cbn [app] in El; injection El as E1 E2.
        * subst z. exists [], (u :: l2). split; [rewrite E2; reflexivity|]. split; [constructor|]. constructor; auto.
        * subst w. exists (b :: u :: l1), l2. split; [rewrite E2; reflexivity|]. split; [|exact F2].
          inversion F1; subst. constructor; [auto|]. constructor; [|auto]. eapply TN; eauto.
  Qed.
  Lemma is_best_unique (u v : universe) l : is_best u l -> is_best v l -> u = v.
  Proof.
    intros (l1 & l2 & E1 & F1 & G1) (m1 & m2 & E2 & F2 & G2). rewrite E1 in E2. clear E1 l. revert m1 E2 F2.
    induction l1 as [|a l1 IH]; intros [|b m1] E2 F2; cbn [app] in E2; injection E2 as E3 E4; auto.
    - exfalso. assert (Hv : In v l2) by (rewrite E4; apply in_or_app; right; now left).
      rewrite Forall_forall in G1. apply (G1 v Hv). rewrite E3. now inversion F2.
    - exfalso. assert (Hu : In u m2) by (rewrite <- E4; apply in_or_app; right; now left).
      rewrite Forall_forall in G2. apply (G2 u Hu). rewrite <- E3. now inversion F1.
    - apply Forall_inv_tail in F1. apply Forall_inv_tail in F2. eapply IH; eauto.
  Qed.

  Lemma reads_unique (u : universe) ka kb v w : NoDup (u_keys u) -> reads u ka kb v -> reads u ka kb w -> v = w.
  Proof.
    intros ND (c & i & j & E1 & E2 & E3 & ->) (c' & i' & j' & E1' & E2' & E3' & ->). rewrite E1 in E1'. injection E1' as <-.
    now rewrite (NoDup_nth_error' _ _ _ _ ND E2 E2'), (NoDup_nth_error' _ _ _ _ ND E3 E3').
  Qed.

  Definition readable1 (u : universe) : Prop :=
    u_keys u <> [] -> NoDup (u_keys u) /\ exists n, n_samples_ (u_est u) = Ok n /\
      (1 <= n -> exists cov, covariance_ (u_est u) = Ok cov /\
         length cov = length (u_keys u) /\ Forall (fun row => length row = length (u_keys u)) cov).

  Lemma candidates_holders ka kb (sts : list (nat * universe)) : Forall (fun kv => readable1 (snd kv)) sts ->
    candidates ka kb sts = Ok (filter (fun u => mem ka (u_keys u) && mem kb (u_keys u) && has_data u) (map snd sts)).
  Proof.
    induction 1 as [|[i u] sts R H IH]; [reflexivity|]. cbn [candidates map filter snd] in *.
    unfold subset at 1. cbn [forallb]. rewrite andb_true_r.
    destruct (mem ka (u_keys u) && mem kb (u_keys u)) eqn:Em; cbn [andb]; [|exact IH].
    destruct R as (ND & n & En & Hn). { intros E. rewrite E in Em. discriminate. }
    unfold running_cov, has_data. rewrite En. cbn [bind]. destruct (Nat.ltb_spec 0 n) as [Hp|Hp]; cbn [bind].
    - destruct (Hn Hp) as (cov & -> & _). cbn [bind]. rewrite IH. reflexivity.
    - rewrite IH. reflexivity.
  Qed.

  (** the value written for a pair, NaN if there is none *)
  Definition written (d : dynamic) (ka kb : string) (v : N) : Prop :=
    (holders d ka kb = [] /\ v = nnan) \/ (exists u, is_best u (holders d ka kb) /\ reads u ka kb v).

  Lemma pair_step_ok (d : dynamic) q n f i j ki kj : readable d -> NoDup q -> length q = n ->
    nth_error q i = Some ki -> nth_error q j = Some kj -> 
    exists v, written d ki kj v /\
      ((holders d ki kj = [] /\ pair_step (dy_states d) q (tab2 n n f) ki kj = Ok (tab2 n n f)) \/
       pair_step (dy_states d) q (tab2 n n f) ki kj =
         Ok (tab2 n n (fun a b => if (Nat.eqb a i && Nat.eqb b j) || (Nat.eqb a j && Nat.eqb b i) then v else f a b))).
  Proof.
    intros HR HN Hn Hi Hj. unfold pair_step. rewrite candidates_holders by exact HR. cbn [bind]. fold (holders d ki kj).
    assert (Li : i < n) by (rewrite <- Hn; apply nth_error_Some; congruence).
    assert (Lj : j < n) by (rewrite <- Hn; apply nth_error_Some; congruence).
    destruct (holders d ki kj) as [|u0 rest] eqn:Eh.
    { exists nnan. split; [left; auto|left; auto]. }
    pose proof (best_of_is_best u0 rest) as HB. set (u := best_of u0 rest) in *.
    assert (Hu : In u (holders d ki kj)).
    { rewrite Eh. destruct HB as (l1 & l2 & -> & _). apply in_or_app. right. now left. }
    unfold holders in Hu. apply filter_In in Hu. destruct Hu as [Hin Hc]. apply andb_true_iff in Hc. destruct Hc as [Hc Hd].
    apply andb_true_iff in Hc. destruct Hc as [Ha Hb]. apply mem_In in Ha. apply mem_In in Hb.
    assert (R1 : readable1 u).
    { apply in_map_iff in Hin. destruct Hin as (kv & <- & Hkv). unfold readable in HR. rewrite Forall_forall in HR. exact (HR kv Hkv). }
    destruct R1 as (ND & m & Em & Hm). { intros E. rewrite E in Ha. destruct Ha. }
    unfold has_data in Hd. rewrite Em in Hd. apply Nat.ltb_lt in Hd.
    destruct (Hm Hd) as (cov & Ec & Lc & Fc).
    unfold running_cov. rewrite Em. cbn [bind]. replace (Nat.ltb 0 m) with true by (symmetry; now apply Nat.ltb_lt).
    rewrite Ec. cbn [bind]. destruct (index_of_ok ki (u_keys u) Ha) as (a & Ea & Na). destruct (index_of_ok kj (u_keys u) Hb) as (b & Eb & Nb).
    rewrite Ea, Eb. cbn [bind].
    assert (La : a < length cov) by (rewrite Lc; apply nth_error_Some; congruence).
    assert (Lb : b < length (u_keys u)) by (apply nth_error_Some; congruence).
    assert (At : at2 cov a b = Ok (mget cov a b)).
    { unfold at2, mget. rewrite (nth_error_nth' cov [] La). rewrite (nth_error_nth' (nth a cov []) n0); [reflexivity|].
      rewrite Forall_forall in Fc. rewrite Fc by (now apply nth_In). exact Lb. }
    rewrite At. cbn [bind]. rewrite (last_index_nodup ki q i HN Hi), (last_index_nodup kj q j HN Hj). cbn [bind].
    exists (mget cov a b). split.
    - right. exists u. split; [rewrite Eh; exact HB|]. exists cov, a, b. auto.
    - right. rewrite mset_tab2, mset_tab2 by auto. f_equal. apply tab2_ext. intros x y _ _.
      destruct (Nat.eqb x i && Nat.eqb y j); cbn [orb]; [|reflexivity]. now destruct (Nat.eqb x j && Nat.eqb y i).
  Qed.

  Lemma written_unique (d : dynamic) ka kb v w : readable d -> written d ka kb v -> written d ka kb w -> v = w.
  Proof.
    intros HR [[H1 ->]|(u & B1 & R1)] [[H2 ->]|(u' & B2 & R2)]; auto.
    - exfalso. rewrite H1 in B2. destruct B2 as ([|? ?] & l2 & E & _); discriminate.
    - exfalso. rewrite H2 in B1. destruct B1 as ([|? ?] & l2 & E & _); discriminate.
    - pose proof (is_best_unique _ _ _ B1 B2) as ->. apply (reads_unique u' ka kb); auto.
      assert (Hin : In u' (holders d ka kb)) by (destruct B2 as (l1 & l2 & -> & _); apply in_or_app; right; now left).
      apply filter_In in Hin. destruct Hin as [Hin _]. apply in_map_iff in Hin. destruct Hin as (kv & <- & Hkv).
      unfold readable in HR. rewrite Forall_forall in HR. apply (HR kv Hkv). intros E.
      destruct R2 as (c & i & j & _ & Hi & _). rewrite E in Hi. destruct i; discriminate.
  Qed.

  (** the table [W] of written values, indexed by positions of the query *)
  Definition table (d : dynamic) (q : list string) (W : nat -> nat -> N) : Prop :=
    forall i j ki kj, i <= j -> nth_error q i = Some ki -> nth_error q j = Some kj ->
      written d ki kj (W i j) /\ W j i = W i j.

  Lemma table_exists (d : dynamic) q : readable d -> NoDup q -> exists W, table d q W.
  Proof.
    intros HR HN.
    assert (E : forall i j ki kj, nth_error q i = Some ki -> nth_error q j = Some kj -> exists v, written d ki kj v).
    { intros i j ki kj Hi Hj. destruct (pair_step_ok d q (length q) (fun _ _ => nnan) i j ki kj HR HN eq_refl Hi Hj) as (v & Hv & _). eauto. }
    assert (Row : forall i ki, nth_error q i = Some ki -> forall l, incl l q -> exists vs : list N, Forall2 (fun kj v => written d ki kj v) l vs).
    { intros i ki Hi l. induction l as [|k l IH]; intros Hl; [exists []; constructor|].
      destruct IH as (vs & Hvs); [intros z Hz; apply Hl; now right|]. assert (Hk : In k q) by (apply Hl; now left).
      apply In_nth_error in Hk. destruct Hk as (j & Hj). destruct (E i j ki k Hi Hj) as (v & Hv). exists (v :: vs). constructor; auto. }
    assert (All : forall l, incl l q -> exists rows : list (list N), Forall2 (fun ki vs => Forall2 (fun kj v => written d ki kj v) q vs) l rows).
    { induction l as [|k l IH]; intros Hl; [exists []; constructor|].
      destruct IH as (rows & Hrows); [intros z Hz; apply Hl; now right|]. assert (Hk : In k q) by (apply Hl; now left).
      apply In_nth_error in Hk. destruct Hk as (i & Hi). destruct (Row i k Hi q (incl_refl q)) as (vs & Hvs). exists (vs :: rows). constructor; auto. }
    destruct (All q (incl_refl q)) as (rows & HF).
    assert (N2 : forall A B (R : A -> B -> Prop) l l' i a, Forall2 R l l' -> nth_error l i = Some a -> exists b, nth_error l' i = Some b /\ R a b).
    { clear. intros A B R l l' i a F. revert i. induction F as [|x y l l' H F IH]; intros [|i]; simpl; try discriminate; [intros [= <-]; eauto|apply IH]. }
    exists (fun i j => nth (Nat.max i j) (nth (Nat.min i j) rows []) n0).
    intros i j ki kj Hij Hi Hj. rewrite (Nat.max_comm j i), (Nat.min_comm j i), Nat.max_r, Nat.min_l by auto. split; [|reflexivity].
    destruct (N2 _ _ _ _ _ _ _ HF Hi) as (vs & Ev & Hvs). destruct (N2 _ _ _ _ _ _ _ Hvs Hj) as (v & Ew & Hv).
    rewrite (nth_error_nth rows i [] Ev), (nth_error_nth vs j n0 Ew). exact Hv.
  Qed.

  Lemma skipn_cons {A} j (q : list A) a r : skipn j q = a :: r -> nth_error q j = Some a /\ skipn (S j) q = r.
  Proof.
    revert q. induction j as [|j IH]; intros [|b q]; simpl; try discriminate.
    - intros [= -> ->]. split; reflexivity.
    - intros H. apply IH in H. exact H.
  Qed.

  Lemma row_loop_ok (d : dynamic) q W n i ki : readable d -> NoDup q -> length q = n -> table d q W -> nth_error q i = Some ki ->
    forall kjs j f (S : nat -> nat -> bool), i <= j -> skipn j q = kjs ->
      (forall a b, f a b = if S a b then W a b else nnan) ->
      exists f', row_loop (dy_states d) q (tab2 n n f) ki kjs = Ok (tab2 n n f') /\
        forall a b, a < n -> b < n -> f' a b = if S a b || (Nat.eqb a i && Nat.leb j b) || (Nat.eqb b i && Nat.leb j a) then W a b else nnan.
  Proof.
    intros HR HN Hn HW Hi kjs. induction kjs as [|kj kjs IH]; intros j f S Hij Es Hf; cbn [row_loop].
    - exists f. split; [reflexivity|]. intros a b Ha Hb. rewrite Hf. assert (Hj : n <= j).
      { assert (L : length (skipn j q) = 0) by (rewrite Es; reflexivity). rewrite skipn_length in L. lia. }
      replace (Nat.leb j b) with false by (symmetry; apply Nat.leb_gt; lia).
      replace (Nat.leb j a) with false by (symmetry; apply Nat.leb_gt; lia). now rewrite !andb_false_r, !orb_false_r.
    - destruct (skipn_cons _ _ _ _ Es) as [Hj Es'].
      destruct (pair_step_ok d q n f i j ki kj HR HN Hn Hi Hj) as (v & Hv & Hstep).
      destruct (HW i j ki kj Hij Hi Hj) as [HWv HWs]. pose proof (written_unique _ _ _ _ _ HR Hv HWv) as Ev.
      set (S' := fun a b => S a b || (Nat.eqb a i && Nat.eqb b j) || (Nat.eqb a j && Nat.eqb b i)).
      assert (K : exists f1, pair_step (dy_states d) q (tab2 n n f) ki kj = Ok (tab2 n n f1) /\ forall a b, f1 a b = if S' a b then W a b else nnan).
      { assert (Key : forall a b, (Nat.eqb a i && Nat.eqb b j) || (Nat.eqb a j && Nat.eqb b i) = true -> W a b = W i j).
        { intros a b T. apply orb_true_iff in T. rewrite !andb_true_iff, !Nat.eqb_eq in T. destruct T as [[-> ->]|[-> ->]]; auto. }
        destruct Hstep as [[Hh Hs]|Hs]; rewrite Hs; eexists; (split; [reflexivity|]); intros a b; cbv beta; unfold S'; rewrite Hf, <- orb_assoc.
        - assert (Wn : W i j = nnan).
          { destruct HWv as [[_ H]|(u & B & _)]; [exact H|]. exfalso. rewrite Hh in B. destruct B as ([|? ?] & l2 & E & _); discriminate. }
          destruct (S a b); cbn [orb]; [reflexivity|]. destruct (_ || _) eqn:T; [|reflexivity]. rewrite (Key a b T). auto.
        - rewrite Ev. destruct (_ || _) eqn:T; [rewrite (Key a b T), orb_true_r; reflexivity|]. rewrite orb_false_r. reflexivity. }
      destruct K as (f1 & -> & Hf1). cbn [bind].
      destruct (IH (Datatypes.S j) f1 S' ltac:(lia) Es' Hf1) as (f' & -> & Hf'). exists f'. split; [reflexivity|].
      intros a b Ha Hb. rewrite Hf' by auto. unfold S'. f_equal.
      destruct (S a b); cbn [orb]; [reflexivity|].
      destruct (Nat.eqb_spec a i); destruct (Nat.eqb_spec b i); destruct (Nat.eqb_spec a j); destruct (Nat.eqb_spec b j);
        destruct (Nat.leb_spec j a); destruct (Nat.leb_spec j b); destruct (Nat.leb_spec (Datatypes.S j) a); destruct (Nat.leb_spec (Datatypes.S j) b);
        cbn [andb orb]; try reflexivity; lia.
  Qed.

  Lemma pairs_loop_ok (d : dynamic) q W n : readable d -> NoDup q -> length q = n -> table d q W ->
    forall suf i f, skipn i q = suf -> (forall a b, a < n -> b < n -> f a b = if Nat.ltb a i || Nat.ltb b i then W a b else nnan) ->
      exists f', pairs_loop (dy_states d) q (tab2 n n f) suf = Ok (tab2 n n f') /\ forall a b, a < n -> b < n -> f' a b = W a b.
  Proof.
    intros HR HN Hn HW suf. induction suf as [|ki suf IH]; intros i f Es Hf; cbn [pairs_loop].
    - exists f. split; [reflexivity|]. intros a b Ha Hb. rewrite Hf by auto.
      assert (L : length (skipn i q) = 0) by (rewrite Es; reflexivity). rewrite skipn_length in L.
      replace (Nat.ltb a i) with true; [reflexivity|]. symmetry. apply Nat.ltb_lt. lia.
    - destruct (skipn_cons _ _ _ _ Es) as [Hi Es'].
      set (f0 := fun a b => if Nat.ltb a i || Nat.ltb b i then W a b else nnan).
      assert (E0 : tab2 n n f = tab2 n n f0) by (apply tab2_ext; intros; apply Hf; auto). rewrite E0.
      destruct (row_loop_ok d q W n i ki HR HN Hn HW Hi (ki :: suf) i f0 (fun a b => Nat.ltb a i || Nat.ltb b i) (le_n i) Es) as (f1 & -> & Hf1).
      { reflexivity. }
      cbn [bind]. apply (IH (S i)); [exact Es'|]. intros a b Ha Hb. rewrite Hf1 by auto.
      destruct (Nat.ltb_spec a i); destruct (Nat.ltb_spec b i); destruct (Nat.eqb_spec a i); destruct (Nat.eqb_spec b i);
        destruct (Nat.leb_spec i a); destruct (Nat.leb_spec i b); destruct (Nat.ltb_spec a (S i)); destruct (Nat.ltb_spec b (S i));
        cbn [andb orb]; try reflexivity; lia.
  Qed.

  Lemma filter_concat {A} f (l : list (list A)) : filter f (concat l) = concat (map (filter f) l).
  Proof. induction l as [|a l IH]; [reflexivity|]. simpl. rewrite filter_app, IH. reflexivity. Qed.

  Definition clean (W : nat -> nat -> N) (a b : nat) : option N := if nisnan (W a b) then None else Some (W a b).

  Lemma fill_value_clean n W : fill_value n (tab2 n n W) = off_diagonal_mean n (clean W).
  Proof.
    unfold fill_value, off_diagonal_mean.
    set (known := filter _ (off_diag n (tab2 n n W))).
    set (vals := flat_map _ _). assert (E : known = vals); [|now rewrite E].
    unfold known, vals, off_diag. rewrite filter_concat, flat_map_concat_map. f_equal. unfold tab at 1. rewrite map_map.
    apply map_ext_in. intros a Ha. apply in_seq in Ha. rewrite filter_concat, flat_map_concat_map. f_equal. unfold tab at 1. rewrite map_map.
    apply map_ext_in. intros b Hb. apply in_seq in Hb. unfold clean. destruct (Nat.eqb a b); [reflexivity|].
    unfold mget. rewrite nth_tab2 by lia. rewrite nth_tab by lia. simpl. destruct (nisnan (W a b)); reflexivity.
  Qed.

  Lemma assemble_ok (d : dynamic) q W : readable d -> NoDup q -> table d q W ->
    assemble (dy_states d) q = Ok (tab2 (length q) (length q) (fun a b =>
      match clean W a b with Some v => v | None => off_diagonal_mean (length q) (clean W) end)).
  Proof.
    intros HR HN HW. unfold assemble. set (n := length q).
    destruct (pairs_loop_ok d q W n HR HN eq_refl HW q 0 (fun _ _ => nnan) eq_refl) as (f' & -> & Hf').
    { reflexivity. }
    cbn [bind]. rewrite (tab2_ext n n f' W) by auto. rewrite fill_value_clean. unfold mmap. rewrite map_tab2. f_equal.
    apply tab2_ext. intros a b _ _. unfold clean. destruct (nisnan (W a b)); reflexivity.
  Qed.
End Asm.

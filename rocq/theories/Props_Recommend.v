(** * C58, C59: the recommender *)
From Coq Require Import Reals ZArith Bool String List Lia Lra Arith Permutation Sorted.
From Verif Require Import Num Numpy PyVal LinalgModel StateModel BaseModel Estimators RegistryModel RecommendModel
  ListLemmas RMat Fin.
Import ListNotations.
Local Open Scope string_scope.

(** ** The decision tree *)
Section Tree.
  Context {N : Num}.
  Definition internal (node : nat) : bool := negb (Z.eqb (nth node FEATURE (-2)%Z) (-2)).
  Definition child_ok (node : nat) : bool :=
    implb (internal node)
      (andb (Z.ltb (Z.of_nat node) (nth node LEFT 0%Z)) (andb (Z.ltb (nth node LEFT 0%Z) 47)
      (andb (Z.ltb (Z.of_nat node) (nth node RIGHT 0%Z)) (Z.ltb (nth node RIGHT 0%Z) 47)))).
  Lemma children_ok : forallb child_ok (seq 0 47) = true. Proof. vm_compute. reflexivity. Qed.
  Lemma walk_S n (xs : vec N) node : walk (S n) xs node =
    if Z.eqb (nth node FEATURE (-2)%Z) (-2) then Ok node else
    walk n xs (Z.to_nat (if nleb (vget xs (Z.to_nat (nth node FEATURE (-2)%Z))) (nth node THRESHOLD n0) then nth node LEFT 0%Z else nth node RIGHT 0%Z)).
  Proof. reflexivity. Qed.
  Lemma walk_0 (xs : vec N) node : walk 0 xs node = if Z.eqb (nth node FEATURE (-2)%Z) (-2) then Ok node else Err FuelExhausted.
  Proof. reflexivity. Qed.
  Lemma walk_ok (xs : vec N) n : forall node, (node < 47)%nat -> (47 - node <= n)%nat ->
    exists leaf, walk n xs node = Ok leaf /\ (node <= leaf < 47)%nat /\ internal leaf = false.
  Proof.
    induction n as [|n IH]; intros node H1 H2; [lia|]. rewrite walk_S.
    destruct (Z.eqb (nth node FEATURE (-2)%Z) (-2)) eqn:E.
    - exists node. split; [reflexivity|]. split; [lia|]. unfold internal. now rewrite E.
    - pose proof (proj1 (forallb_forall _ _) children_ok node ltac:(apply in_seq; lia)) as K. unfold child_ok, internal in K. rewrite E in K. cbn [negb implb] in K.
      repeat (apply andb_prop in K; destruct K as [? K]). rewrite Z.ltb_lt in *.
      match goal with |- context [walk n xs (Z.to_nat ?c)] => assert (C : (Z.of_nat node < c < 47)%Z) by (destruct (nleb _ _); lia); destruct (IH (Z.to_nat c)) as (leaf & W1 & W2 & W3); try lia end.
      exists leaf. split; [exact W1|]. split; [lia|exact W3].
  Qed.
  (** the four nodes on the path to leaf 46 *)
  Definition on_path (node : nat) : bool := existsb (Nat.eqb node) [0; 26; 42; 46]%nat.
  Definition off_ok (node : nat) : bool :=
    implb (andb (internal node) (negb (on_path node)))
      (andb (negb (on_path (Z.to_nat (nth node LEFT 0%Z)))) (negb (on_path (Z.to_nat (nth node RIGHT 0%Z))))).
  Lemma off_path : forallb off_ok (seq 0 47) = true. Proof. vm_compute. reflexivity. Qed.
  Lemma internal_lt node : internal node = true -> (node < 47)%nat.
  Proof.
    intros H. destruct (le_lt_dec 47 node) as [Hl|]; [|auto]. unfold internal in H. rewrite nth_overflow in H; [discriminate|]. exact Hl.
  Qed.
  Lemma walk_off (xs : vec N) n : forall node leaf, on_path node = false -> walk n xs node = Ok leaf -> on_path leaf = false.
  Proof.
    assert (G : forall node leaf n, (forall c leaf, on_path c = false -> walk n xs c = Ok leaf -> on_path leaf = false) -> on_path node = false ->
      walk (S n) xs node = Ok leaf -> on_path leaf = false).
    { intros node leaf m IH Hp. rewrite walk_S. destruct (Z.eqb (nth node FEATURE (-2)%Z) (-2)) eqn:E; [now intros [= <-]|].
      assert (I : internal node = true) by (unfold internal; now rewrite E).
      pose proof (proj1 (forallb_forall _ _) off_path node ltac:(apply in_seq; pose proof (internal_lt _ I); lia)) as K. unfold off_ok in K. rewrite I, Hp in K. cbn [negb implb andb] in K.
      apply andb_prop in K. destruct K as [K1 K2]. apply negb_true_iff in K1, K2. apply IH. destruct (nleb _ _); assumption. }
    induction n as [|n IH]; intros node leaf Hp.
    - rewrite walk_0. destruct (Z.eqb _ _); [now intros [= <-]|discriminate].
    - now apply G.
  Qed.
  (** [x > t] as Python's [not x <= t] (so a NaN counts as above) *)
  Definition above (xs : vec N) (k : nat) (t : N) : bool := negb (nleb (vget xs k) t).
  Definition reaches46 (xs : vec N) : bool :=
    andb (above xs 2 (nlit (-249988) 6)) (andb (above xs 5 (nlit 803702 6)) (above xs 2 (nlit 625918 6))).
  Lemma walk_at n (xs : vec N) node k t l r : nth node FEATURE (-2)%Z = Z.of_nat k -> nth node THRESHOLD n0 = t ->
    nth node LEFT 0%Z = Z.of_nat l -> nth node RIGHT 0%Z = Z.of_nat r ->
    walk (S n) xs node = if nleb (vget xs k) t then walk n xs l else walk n xs r.
  Proof.
    intros H1 H2 H3 H4. rewrite walk_S, H1, H2, H3, H4, Nat2Z.id. destruct (Z.eqb_spec (Z.of_nat k) (-2)); [lia|].
    destruct (nleb (vget xs k) t); now rewrite Nat2Z.id.
  Qed.
  Lemma walk_leaf n (xs : vec N) node : nth node FEATURE (-2)%Z = (-2)%Z -> walk n xs node = Ok node.
  Proof. intros H. destruct n; [rewrite walk_0|rewrite walk_S]; rewrite H; reflexivity. Qed.
  Lemma walk46 (xs : vec N) leaf : walk 47 xs 0 = Ok leaf -> Nat.eqb leaf 46 = reaches46 xs.
  Proof.
    assert (OFF : forall n c, on_path c = false -> walk n xs c = Ok leaf -> Nat.eqb leaf 46 = false).
    { intros n c Hc H. pose proof (walk_off xs n c leaf Hc H) as Hl. destruct (Nat.eqb_spec leaf 46) as [->|]; [discriminate|reflexivity]. }
    unfold reaches46, above.
    rewrite (walk_at 46 xs 0 2 (nlit (-249988) 6) 1 26) by reflexivity.
    destruct (nleb (vget xs 2) (nlit (-249988) 6)); cbn [negb andb]; [now apply OFF|].
    rewrite (walk_at 45 xs 26 5 (nlit 803702 6) 27 42) by reflexivity.
    destruct (nleb (vget xs 5) (nlit 803702 6)); cbn [negb andb]; [now apply OFF|].
    rewrite (walk_at 44 xs 42 2 (nlit 625918 6) 43 46) by reflexivity.
    destruct (nleb (vget xs 2) (nlit 625918 6)); cbn [negb andb]; [now apply OFF|].
    rewrite walk_leaf by reflexivity. intros [= <-]. reflexivity.
  Qed.
  (** every other leaf is empty *)
  Definition empty_leaf (node : nat) : bool := implb (negb (Nat.eqb node 46)) (forallb (Z.eqb 0) (nth node VALUE [])).
  Lemma leaves_empty : forallb empty_leaf (seq 0 47) = true. Proof. vm_compute. reflexivity. Qed.
End Tree.

(** ** Sorting *)
Section Sort.
  Context {A : Type} (key : A -> Z * Z).
  Lemma insert_perm x l : Permutation (insert_by key x l) (x :: l).
  Proof. induction l as [|y l IH]; cbn; [auto|]. destruct (key_le (key x) (key y)); [auto|]. rewrite IH. apply perm_swap. Qed.
  Lemma sorted_perm l : Permutation (sorted_by key l) l.
  Proof. induction l as [|x l IH]; cbn; [auto|]. rewrite insert_perm. now constructor. Qed.
  (** lexicographic order of the keys *)
  Definition klt (a b : Z * Z) : Prop := (fst a < fst b)%Z \/ fst a = fst b /\ (snd a < snd b)%Z.
  Lemma key_le_spec a b : key_le a b = true <-> ~ klt b a.
  Proof.
    unfold key_le, klt. destruct a as [a1 a2], b as [b1 b2]. cbn [fst snd]. rewrite orb_true_iff, andb_true_iff, Z.ltb_lt, Z.eqb_eq, Z.leb_le. lia.
  Qed.
  Lemma klt_dec a b : {klt a b} + {~ klt a b}.
  Proof. destruct (key_le b a) eqn:E; [right; now apply key_le_spec|left]. destruct a as [a1 a2], b as [b1 b2]. unfold key_le, klt in *. cbn [fst snd] in *.
    apply orb_false_iff in E. rewrite andb_false_iff, Z.ltb_ge, Z.eqb_neq, Z.leb_gt in E. lia. Qed.
  Lemma nklt_trans a b c : ~ klt b a -> ~ klt c b -> ~ klt c a.
  Proof. unfold klt. lia. Qed.
  Definition no_inversion (x y : A) : Prop := ~ klt (key y) (key x).
  Lemma insert_sorted x l : StronglySorted no_inversion l -> StronglySorted no_inversion (insert_by key x l).
  Proof.
    induction l as [|y l IH]; intros H; cbn.
    - constructor; constructor.
    - inversion H as [|? ? Hs Hf]; subst. destruct (key_le (key x) (key y)) eqn:E.
      + apply key_le_spec in E. constructor; [exact H|]. constructor; [exact E|]. rewrite Forall_forall in *. intros z Hz. unfold no_inversion in *. eapply nklt_trans; [exact E|now apply Hf].
      + constructor; [auto|]. apply Forall_forall. intros z Hz. apply (Permutation_in _ (insert_perm x l)) in Hz. destruct Hz as [<-|Hz].
        * intros K. assert (~ klt (key y) (key x)) by (unfold klt in *; lia). apply key_le_spec in H0. congruence.
        * rewrite Forall_forall in Hf. now apply Hf.
  Qed.
  Lemma sorted_sorted l : StronglySorted no_inversion (sorted_by key l).
  Proof. induction l as [|x l IH]; cbn; [constructor|now apply insert_sorted]. Qed.
  (** stability: among the elements with one key the input order is kept *)
  Definition has_key (k : Z * Z) (x : A) : bool := andb (Z.eqb (fst (key x)) (fst k)) (Z.eqb (snd (key x)) (snd k)).
  Lemma insert_stable k x l : filter (has_key k) (insert_by key x l) = filter (has_key k) (x :: l).
  Proof.
    induction l as [|y l IH]; cbn [insert_by]; [reflexivity|]. destruct (key_le (key x) (key y)) eqn:E; [reflexivity|].
    cbn [filter]. rewrite IH. cbn [filter]. destruct (has_key k y) eqn:Hy, (has_key k x) eqn:Hx; auto.
    exfalso. unfold has_key, key_le in *. rewrite andb_true_iff, !Z.eqb_eq in *. apply orb_false_iff in E. rewrite andb_false_iff, Z.ltb_ge, Z.eqb_neq, Z.leb_gt in E. lia.
  Qed.
  Lemma sorted_stable k l : filter (has_key k) (sorted_by key l) = filter (has_key k) l.
  Proof. induction l as [|x l IH]; cbn [sorted_by fold_right]; [reflexivity|]. rewrite insert_stable. cbn [filter]. fold (sorted_by key l). now rewrite IH. Qed.
End Sort.

Section Rec.
  Context {N : Num} (L : LinAlg N) (fuel : nat).
  Notation names := (map name_of (all_estimators L fuel)).
  Notation lookup := (estimator_from_name L fuel).

  (** ** C58 *)
  (** The walk over the frozen tree stops at a leaf for every feature vector, NaN and infinities included. *)
Theorem C58_walk_terminates (f : features N) : exists w, trained_weights f = Ok w.
  Proof.
    unfold trained_weights. assert (exists xs, standardised f = Ok xs) as (xs & ->) by (eexists; reflexivity). cbn [bind].
    assert (E47 : length FEATURE = 47%nat) by reflexivity. rewrite E47.
    destruct (walk_ok xs 47 0) as (leaf & -> & _); [lia|lia|]. cbn [bind]. eauto.
  Qed.
  Lemma heuristic_total (f : features N) : exists h, heuristic_scores names f = Ok h.
  Proof. unfold heuristic_scores. destruct (orb _ _), (heavy_tailed f); eexists; reflexivity. Qed.
  Lemma ranking_perm model (f : features N) : exists r, ranking L model fuel f = Ok r /\ Permutation r (all_estimators L fuel).
  Proof.
    unfold ranking. destruct (heuristic_total f) as (h & ->). cbn [bind]. destruct model.
    - destruct (C58_walk_terminates f) as (w & ->). cbn [bind]. eexists. split; [reflexivity|apply sorted_perm].
    - eexists. split; [reflexivity|apply sorted_perm].
  Qed.
  Lemma take_length {A} top (l : list A) : length (py_take top l) = Z.to_nat (if Z.ltb top 0 then Z.max 0 (Z.of_nat (length l) + top) else Z.min top (Z.of_nat (length l))).
  Proof. unfold py_take. rewrite firstn_length. destruct (Z.ltb_spec top 0); lia. Qed.
  (** Whenever the features of [X] can be computed, [suggest] returns distinct registered classes: [top] of them (at most 17);
      a negative [top] drops that many from the end; smaller [top]s give prefixes. *)
Theorem C58_suggest model X f : covariance_features L X = Ok f ->
    exists r, suggest L model fuel X 17 = Ok r /\ Permutation r (all_estimators L fuel) /\
      forall top, exists s, suggest L model fuel X top = Ok s /\
        length s = Z.to_nat (if Z.ltb top 0 then Z.max 0 (17 + top) else Z.min top 17) /\
        NoDup (map name_of s) /\ Forall (fun c => lookup (name_of c) = Ok c) s /\
        s = firstn (length s) r.
  Proof.
    intros Hf. destruct (ranking_perm model f) as (r & Hr & P). pose proof (Permutation_length P) as PL. change (length (all_estimators L fuel)) with 17%nat in PL.
    unfold suggest. rewrite Hf. cbn [bind]. rewrite Hr. cbn [bind].
    assert (T17 : py_take 17 r = r) by (unfold py_take; apply firstn_all2; rewrite PL; cbn; lia).
    exists r. split; [now rewrite T17|]. split; [exact P|]. intros top. eexists. split; [reflexivity|].
    split; [rewrite take_length, PL; reflexivity|].
    assert (ND : NoDup (map name_of r)).
    { eapply Permutation_NoDup; [symmetry; apply Permutation_map; exact P|]. repeat constructor; cbn; intuition congruence. }
    assert (LK : Forall (fun c => lookup (name_of c) = Ok c) r).
    { eapply Permutation_Forall; [symmetry; exact P|]. repeat constructor. }
    split; [|split].
    - unfold py_take. rewrite <- firstn_map. rewrite <- (firstn_skipn (Z.to_nat (if Z.ltb top 0 then Z.of_nat (length r) + top else top)%Z) (map name_of r)) in ND.
      clear -ND. revert ND. generalize (firstn (Z.to_nat (if Z.ltb top 0 then Z.of_nat (length r) + top else top)%Z) (map name_of r)) as a. generalize (skipn (Z.to_nat (if Z.ltb top 0 then Z.of_nat (length r) + top else top)%Z) (map name_of r)) as b.
      intros b a H. induction a as [|x a IH]; [constructor|]. cbn in H. inversion H; subst. constructor; [|auto]. intros K. apply H2. apply in_or_app. auto.
    - unfold py_take. apply Forall_forall. intros c Hc. rewrite Forall_forall in LK. apply LK. clear -Hc. revert Hc. generalize (Z.to_nat (if Z.ltb top 0 then Z.of_nat (length r) + top else top)%Z) as n.
      intros n. rewrite <- (firstn_skipn n r) at 2. intros. apply in_or_app. auto.
    - unfold py_take. rewrite firstn_length. destruct (Nat.min_spec (Z.to_nat (if Z.ltb top 0 then Z.of_nat (length r) + top else top)%Z) (length r)) as [[H ->]|[H ->]]; [reflexivity|].
      rewrite firstn_all. apply firstn_all2. exact H.
  Qed.
  (** The ranking is by leaf count, then heuristic score, both best first, ties in registry order. *)
Theorem C58_order (f : features N) : exists w h r,
    trained_weights f = Ok w /\ heuristic_scores names f = Ok h /\ ranking L true fuel f = Ok r /\
    let count c := dflt (sc_get w (name_of c)) in
    let score c := dflt (sc_get h (name_of c)) in
    StronglySorted (fun a b => (count b < count a)%Z \/ count a = count b /\ (score b <= score a)%Z) r /\
    forall k s, filter (fun c => andb (Z.eqb (count c) k) (Z.eqb (score c) s)) r =
                filter (fun c => andb (Z.eqb (count c) k) (Z.eqb (score c) s)) (all_estimators L fuel).
  Proof.
    destruct (heuristic_total f) as (h & Hh). destruct (C58_walk_terminates f) as (w & Hw). exists w, h. eexists. split; [exact Hw|]. split; [exact Hh|].
    split; [unfold ranking; rewrite Hh; cbn [bind]; rewrite Hw; reflexivity|]. cbv zeta. split.
    - match goal with |- StronglySorted ?R (sorted_by ?k ?l) => pose proof (sorted_sorted k l) as S end.
      revert S. match goal with |- StronglySorted _ ?l -> _ => generalize l end. intros l S. induction S as [|x l S IH F]; constructor; auto.
      eapply Forall_impl; [|exact F]. intros y Hy. unfold no_inversion, klt in Hy. cbn [fst snd] in Hy. lia.
    - intros k s. match goal with |- context [sorted_by ?kk ?l] => pose proof (sorted_stable kk (- k, - s)%Z l) as S end.
      assert (E : forall l : list (Registered N), filter (fun c => andb (Z.eqb (dflt (sc_get w (name_of c))) k) (Z.eqb (dflt (sc_get h (name_of c))) s)) l =
        filter (has_key (fun r => (- dflt (sc_get w (name_of r)), - dflt (sc_get h (name_of r)))%Z) (- k, - s)%Z) l).
      { intros l. apply filter_ext. intros c. unfold has_key. cbn [fst snd].
        destruct (Z.eqb_spec (dflt (sc_get w (name_of c))) k), (Z.eqb_spec (- dflt (sc_get w (name_of c))) (- k)); try lia. }
      rewrite !E. exact S.
  Qed.

  (** ** C59: only the last leaf votes, so the first recommendation is one of two classes *)
  Definition hard (f : features N) : bool := orb (high_dim f) (ill_conditioned f).
  (** standardised sphericity above -0.249988 and 0.625918, standardised excess kurtosis above 0.803702 *)
  Definition spiky (f : features N) : bool := match standardised f with Ok xs => reaches46 xs | Err _ => false end.
  Lemma weights_of (f : features N) : exists w, trained_weights f = Ok w /\
    forall k, dflt (sc_get w k) = if andb (spiky f) (String.eqb "LedoitWolfCovariance" k) then 1%Z else 0%Z.
  Proof.
    unfold trained_weights, spiky. assert (exists xs, standardised f = Ok xs) as (xs & ->) by (eexists; reflexivity). cbn [bind].
    destruct (walk_ok xs 47 0) as (leaf & W & B & _); [lia|lia|]. pose proof (walk46 xs leaf W) as E. assert (E47 : length FEATURE = 47%nat) by reflexivity. rewrite E47, W. cbn [bind].
    eexists. split; [reflexivity|]. intros k. rewrite <- E. destruct (Nat.eqb_spec leaf 46) as [->|Hn].
    - cbn [nth VALUE combine CLASSES]. unfold sc_get. cbn [find fst]. cbn [andb].
      repeat match goal with |- context [String.eqb ?a k] => destruct (String.eqb_spec a k); [subst k; reflexivity|] end. reflexivity.
    - cbn [andb]. pose proof (proj1 (forallb_forall _ _) leaves_empty leaf ltac:(apply in_seq; lia)) as K. unfold empty_leaf in K.
      destruct (Nat.eqb_spec leaf 46); [contradiction|]. cbn [negb implb] in K. unfold sc_get.
      revert K. generalize (nth leaf VALUE []) as v. generalize CLASSES as cl. induction cl as [|c cl IH]; intros v K; [reflexivity|].
      destruct v as [|z v]; [reflexivity|]. cbn [forallb] in K. apply andb_prop in K. destruct K as [K1 K2]. apply Z.eqb_eq in K1. cbn [combine find fst].
      destruct (String.eqb c k); [cbn; lia|now apply IH].
  Qed.
  Definition tops (f : features N) : list string :=
    if hard f then ["LedoitWolfCovariance"; "OASCovariance"; "ShrunkCovariance"]
    else if spiky f then ["LedoitWolfCovariance"; "EmpiricalCovariance"; "EwaCovariance"]
    else if heavy_tailed f then ["EmpiricalCovariance"; "EwaCovariance"; "HuberCovariance"]
    else ["EmpiricalCovariance"; "EwaCovariance"; "LedoitWolfCovariance"].
  Lemma sorted_ext {A} (k1 k2 : A -> Z * Z) l : (forall a, k1 a = k2 a) -> sorted_by k1 l = sorted_by k2 l.
  Proof.
    intros H. induction l as [|x l IH]; [reflexivity|]. cbn [sorted_by fold_right]. fold (sorted_by k1 l) (sorted_by k2 l). rewrite IH.
    generalize (sorted_by k2 l) as m. induction m as [|y m IHm]; [reflexivity|]. cbn [insert_by]. rewrite !H, IHm. reflexivity.
  Qed.
Theorem C59_top_three X f : covariance_features L X = Ok f ->
    exists s, suggest L true fuel X 3 = Ok s /\ map name_of s = tops f.
  Proof.
    intros Hf. unfold suggest. rewrite Hf. cbn [bind]. unfold ranking. destruct (weights_of f) as (w & -> & Hw).
    unfold tops, hard.
    assert (HH : heuristic_scores names f = Ok (match orb (high_dim f) (ill_conditioned f), heavy_tailed f with
      | true, true => ltac:(let t := eval vm_compute in (s1 <- sc_add_all 4 (map (fun nm => (nm, 0%Z)) names) ["FactorCovariance"; "LedoitWolfCovariance"; "OASCovariance"; "ShrunkCovariance"; "SchurCovariance"] ;; s2 <- sc_add_all 3 s1 ["HuberCovariance"; "TylerCovariance"] ;; sc_add 1 s2 "LedoitWolfCovariance") in match t with Ok ?v => exact v end)
      | true, false => ltac:(let t := eval vm_compute in (s1 <- sc_add_all 4 (map (fun nm => (nm, 0%Z)) names) ["FactorCovariance"; "LedoitWolfCovariance"; "OASCovariance"; "ShrunkCovariance"; "SchurCovariance"] ;; sc_add 1 s1 "LedoitWolfCovariance") in match t with Ok ?v => exact v end)
      | false, true => ltac:(let t := eval vm_compute in (s1 <- sc_add_all 4 (map (fun nm => (nm, 0%Z)) names) ["EmpiricalCovariance"; "EwaCovariance"] ;; s2 <- sc_add_all 3 s1 ["HuberCovariance"; "TylerCovariance"] ;; sc_add 1 s2 "LedoitWolfCovariance") in match t with Ok ?v => exact v end)
      | false, false => ltac:(let t := eval vm_compute in (s1 <- sc_add_all 4 (map (fun nm => (nm, 0%Z)) names) ["EmpiricalCovariance"; "EwaCovariance"] ;; sc_add 1 s1 "LedoitWolfCovariance") in match t with Ok ?v => exact v end) end)).
    { unfold heuristic_scores. destruct (orb (high_dim f) (ill_conditioned f)), (heavy_tailed f); vm_compute; reflexivity. }
    rewrite HH. clear HH. cbn [bind]. eexists. split; [reflexivity|].
    rewrite (sorted_ext _ _ _ (fun r => f_equal (fun z => (- z, _)%Z) (Hw (name_of r)))).
    destruct (orb (high_dim f) (ill_conditioned f)), (spiky f), (heavy_tailed f); vm_compute; reflexivity.
  Qed.
  (** The first recommendation: never anything but LedoitWolfCovariance or EmpiricalCovariance. *)
Theorem C59_first X f : covariance_features L X = Ok f ->
    exists c, suggest L true fuel X 1 = Ok [c] /\
      name_of c = if orb (hard f) (spiky f) then "LedoitWolfCovariance" else "EmpiricalCovariance".
  Proof.
    intros Hf. destruct (C58_suggest true X f Hf) as (r & Hr & _ & H).
    destruct (H 3%Z) as (s3 & E3 & _ & _ & _ & P3). destruct (H 1%Z) as (s1 & E1 & L1 & _ & _ & P1).
    destruct (C59_top_three X f Hf) as (s & E & T). rewrite E in E3. injection E3 as <-. cbn in L1. change (Pos.to_nat 1) with 1%nat in L1.
    rewrite L1 in P1. destruct s as [|c s]; [exfalso; revert T; unfold tops; destruct (hard f), (spiky f), (heavy_tailed f); discriminate|].
    destruct r as [|c' r]; [cbn in P3; discriminate|]. cbn in P3. injection P3 as -> _. cbn in P1. subst s1. exists c'. split; [exact E1|].
    cbn [map] in T. revert T. unfold tops. destruct (hard f), (spiky f), (heavy_tailed f); cbn [orb]; intros T; injection T as T _; exact T.
  Qed.

  (** *** The complete ranking: a list of leaders followed by the other registered names in registry order *)
  Definition leaders (hard leaf heavy : bool) : list string :=
    if hard then ["LedoitWolfCovariance"; "OASCovariance"; "ShrunkCovariance"; "SchurCovariance"; "FactorCovariance"] ++
                 (if heavy then ["HuberCovariance"; "TylerCovariance"] else [])
    else if leaf then ["LedoitWolfCovariance"; "EmpiricalCovariance"; "EwaCovariance"] ++ (if heavy then ["HuberCovariance"; "TylerCovariance"] else [])
    else ["EmpiricalCovariance"; "EwaCovariance"] ++ (if heavy then ["HuberCovariance"; "TylerCovariance"] else []) ++ ["LedoitWolfCovariance"].
  Definition then_the_others (l : list string) : list string :=
    l ++ filter (fun n => negb (existsb (String.eqb n) l)) (estimator_names L fuel).
Theorem C59_ranking model X f : covariance_features L X = Ok f ->
    exists s, suggest L model fuel X 17 = Ok s /\ map name_of s = then_the_others (leaders (hard f) (model && spiky f) (heavy_tailed f)).
  Proof.
    intros Hf. unfold suggest. rewrite Hf. cbn [bind]. unfold ranking. destruct (weights_of f) as (w & -> & Hw). unfold hard.
    assert (HH : heuristic_scores names f = Ok (match orb (high_dim f) (ill_conditioned f), heavy_tailed f with
      | true, true => ltac:(let t := eval vm_compute in (s1 <- sc_add_all 4 (map (fun nm => (nm, 0%Z)) names) ["FactorCovariance"; "LedoitWolfCovariance"; "OASCovariance"; "ShrunkCovariance"; "SchurCovariance"] ;; s2 <- sc_add_all 3 s1 ["HuberCovariance"; "TylerCovariance"] ;; sc_add 1 s2 "LedoitWolfCovariance") in match t with Ok ?v => exact v end)
      | true, false => ltac:(let t := eval vm_compute in (s1 <- sc_add_all 4 (map (fun nm => (nm, 0%Z)) names) ["FactorCovariance"; "LedoitWolfCovariance"; "OASCovariance"; "ShrunkCovariance"; "SchurCovariance"] ;; sc_add 1 s1 "LedoitWolfCovariance") in match t with Ok ?v => exact v end)
      | false, true => ltac:(let t := eval vm_compute in (s1 <- sc_add_all 4 (map (fun nm => (nm, 0%Z)) names) ["EmpiricalCovariance"; "EwaCovariance"] ;; s2 <- sc_add_all 3 s1 ["HuberCovariance"; "TylerCovariance"] ;; sc_add 1 s2 "LedoitWolfCovariance") in match t with Ok ?v => exact v end)
      | false, false => ltac:(let t := eval vm_compute in (s1 <- sc_add_all 4 (map (fun nm => (nm, 0%Z)) names) ["EmpiricalCovariance"; "EwaCovariance"] ;; sc_add 1 s1 "LedoitWolfCovariance") in match t with Ok ?v => exact v end) end)).
    { unfold heuristic_scores. destruct (orb (high_dim f) (ill_conditioned f)), (heavy_tailed f); vm_compute; reflexivity. }
    rewrite HH. clear HH. cbn [bind]. destruct model; cbn [andb bind]; (eexists; split; [reflexivity|]).
    - rewrite (sorted_ext _ _ _ (fun r => f_equal (fun z => (- z, _)%Z) (Hw (name_of r)))).
      destruct (orb (high_dim f) (ill_conditioned f)), (spiky f), (heavy_tailed f); vm_compute; reflexivity.
    - destruct (orb (high_dim f) (ill_conditioned f)), (heavy_tailed f); vm_compute; reflexivity.
  Qed.
End Rec.

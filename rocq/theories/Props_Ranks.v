(** * C97: rankings, trials and the bake-off of research/oos.py and research/bakeoff.py *)
From Coq Require Import Reals ZArith Bool String List Lia Lra Arith Sorted Permutation.
From Verif Require Import Num Numpy PyVal LinalgModel StateModel BaseModel Estimators RegistryModel ParamsModel AssessModel RecommendModel
  Spec ListLemmas OosModel OosSpec Props_Params Props_Recommend Props_Oos Props_OosReal.
Import ListNotations.
Local Open Scope string_scope.
Local Open Scope list_scope.

(** ** Where an element lands in a stable sort *)
Section Sort.
  Context {N : Num} {A : Type} (f : A -> N).
  Definition good (l : list A) : Prop :=
    (forall x y, In x l -> In y l -> nleb (f x) (f y) = true \/ nleb (f y) (f x) = true) /\
    (forall x y z, In x l -> In y l -> In z l -> nleb (f x) (f y) = true -> nleb (f y) (f z) = true -> nleb (f x) (f z) = true).
  Lemma insert_num_perm x l : Permutation (insert_num f x l) (x :: l).
  Proof. induction l as [|y l IH]; simpl; auto. destruct nleb; auto. etransitivity; [apply perm_skip, IH|apply perm_swap]. Qed.
  Lemma sorted_num_perm l : Permutation (sorted_num f l) l.
  Proof. induction l as [|x l IH]; simpl; auto. etransitivity; [apply insert_num_perm|auto]. Qed.
  Definition le_key (x y : A) : Prop := nleb (f x) (f y) = true.
  Lemma good_sub l l' : (forall x, In x l' -> In x l) -> good l -> good l'.
  Proof. intros H [G1 G2]. split; [intros x y Hx Hy; apply G1; auto|intros x y z Hx Hy Hz; apply (G2 x y z); auto]. Qed.
  Lemma good_tail x l : good (x :: l) -> good l.
  Proof. apply good_sub. intros; now right. Qed.
  Lemma insert_num_sorted x l : good (x :: l) -> StronglySorted le_key l -> StronglySorted le_key (insert_num f x l).
  Proof.
    intros G H. induction H as [|y l HS IH HF]; simpl; [repeat constructor|]. destruct (nleb (f x) (f y)) eqn:E.
    - constructor; [now constructor|]. constructor; [exact E|]. rewrite Forall_forall in *. intros z Hz. destruct G as [_ G]. apply (G x y z); simpl; auto. now apply HF.
    - constructor.
      + apply IH. revert G. apply good_sub. simpl. intuition.
      + rewrite Forall_forall in *. intros z Hz. apply (Permutation_in z (insert_num_perm x l)) in Hz. destruct Hz as [<-|Hz]; [|auto].
        destruct G as [G1 _]. destruct (G1 x y) as [G|G]; simpl; auto. congruence.
  Qed.
  Lemma sorted_num_sorted l : good l -> StronglySorted le_key (sorted_num f l).
  Proof.
    induction l as [|x l IH]; simpl; intros G; [constructor|]. apply insert_num_sorted; [|apply IH; now apply good_tail in G].
    revert G. apply good_sub. intros y [->|Hy]; [now left|right]. apply (Permutation_in y (sorted_num_perm l) Hy).
  Qed.
  Definition count (P : A -> bool) (l : list A) : nat := length (filter P l).
  (** inserting x into a sorted list puts it after the strictly smaller ones *)
  Lemma insert_at x l : good (x :: l) -> StronglySorted le_key l -> exists l1 l2, insert_num f x l = l1 ++ x :: l2 /\ length l1 = count (fun y => negb (nleb (f x) (f y))) l.
  Proof.
    unfold count. intros G H. induction H as [|y l HS IH HF]; simpl; [exists [], []; auto|]. destruct (nleb (f x) (f y)) eqn:E; simpl.
    - exists [], (y :: l). split; [reflexivity|]. simpl. replace (filter _ l) with (@nil A); [reflexivity|]. symmetry.
      assert (Z : forall z, In z l -> negb (nleb (f x) (f z)) = false).
      { intros z Hz. rewrite Forall_forall in HF. destruct G as [_ G]. rewrite (G x y z); simpl; auto. now apply HF. }
      clear -Z. induction l as [|z l IH]; simpl; auto. rewrite Z by now left. apply IH. intros; apply Z; now right.
    - destruct IH as (l1 & l2 & E1 & E2). { revert G. apply good_sub. simpl. intuition. }
      exists (y :: l1), l2. rewrite E1. split; [reflexivity|]. simpl. now rewrite E2.
  Qed.
  (** inserting z later moves x by one place iff z's key is at most x's *)
  Lemma insert_keep z x l1 l2 : good (z :: l1 ++ x :: l2) -> StronglySorted le_key (l1 ++ x :: l2) -> exists l1' l2',
    insert_num f z (l1 ++ x :: l2) = l1' ++ x :: l2' /\ length l1' = (if nleb (f z) (f x) then S (length l1) else length l1).
  Proof.
    induction l1 as [|y l1 IH]; simpl; intros G HS.
    - destruct (nleb (f z) (f x)); [exists [z], l2|exists [], (insert_num f z l2)]; auto.
    - inversion HS; subst. destruct (nleb (f z) (f y)) eqn:E.
      + rewrite Forall_forall in H2. assert (Q : nleb (f z) (f x) = true).
        { destruct G as [_ G]. apply (G z y x); simpl; auto; [right; right; apply in_or_app; right; now left|]. apply H2. apply in_or_app. right. now left. }
        rewrite Q. exists (z :: y :: l1), l2. auto.
      + destruct IH as (l1' & l2' & E1 & E2); [|exact H1|].
        { revert G. apply good_sub. simpl. intuition. }
        exists (y :: l1'), l2'. rewrite E1. split; [reflexivity|]. simpl. rewrite E2. destruct (nleb (f z) (f x)); reflexivity.
  Qed.
  Lemma good_perm l l' : Permutation l l' -> good l -> good l'.
  Proof. intros P. apply good_sub. intros x. apply Permutation_in. now apply Permutation_sym. Qed.
  Lemma count_perm P l l' : Permutation l l' -> count P l = count P l'.
  Proof. unfold count. induction 1; simpl; auto; [destruct (P x); simpl; congruence|destruct (P x), (P y); simpl; congruence|congruence]. Qed.
  Lemma sorted_at pre x post : good (pre ++ x :: post) -> exists l1 l2, sorted_num f (pre ++ x :: post) = l1 ++ x :: l2 /\
    length l1 = count (fun y => nleb (f y) (f x)) pre + count (fun y => negb (nleb (f x) (f y))) post.
  Proof.
    induction pre as [|z pre IH]; simpl; intros G.
    - destruct (insert_at x (sorted_num f post)) as (l1 & l2 & E1 & E2).
      + apply (good_perm (x :: post)); auto. apply perm_skip, Permutation_sym, sorted_num_perm.
      + apply sorted_num_sorted. now apply good_tail in G.
      + exists l1, l2. split; [exact E1|]. rewrite E2. apply count_perm, sorted_num_perm.
    - destruct IH as (l1 & l2 & E1 & E2); [now apply good_tail in G|]. rewrite E1.
      destruct (insert_keep z x l1 l2) as (l1' & l2' & F1 & F2).
      + apply (good_perm (z :: pre ++ x :: post)); auto. apply perm_skip. rewrite <- E1. apply Permutation_sym, sorted_num_perm.
      + rewrite <- E1. apply sorted_num_sorted. now apply good_tail in G.
      + exists l1', l2'. split; [exact F1|]. rewrite F2. unfold count in *. simpl. destruct (nleb (f z) (f x)); simpl; lia.
  Qed.
End Sort.

(** ** _ranks *)
Definition beats (a b : xreal) : bool := xltb b a.
Definition no_nan (scores : list (string * xreal)) : Prop := forall nm s, In (nm, s) scores -> s <> NaN.

Lemma opp_le (a b : xreal) : a <> NaN -> b <> NaN -> (xleb (xopp a) (xopp b) = true <-> xle b a).
Proof.
  destruct a, b; simpl; intros; try congruence; split; intros; auto; try discriminate; try contradiction; try lra;
    unfold Rleb in *; destruct Rle_dec; auto; try lra; try discriminate.
Qed.
Lemma opp_nan a : a <> NaN -> xopp a <> NaN. Proof. destruct a; simpl; congruence. Qed.
Lemma xle_total a b : a <> NaN -> b <> NaN -> xle a b \/ xle b a.
Proof. destruct a, b; simpl; intros; auto; try congruence. lra. Qed.
Lemma xltb_iff a b : a <> NaN -> b <> NaN -> (xltb a b = true <-> ~ xle b a).
Proof.
  destruct a, b; simpl; intros; try congruence; split; intros; auto; try discriminate; try tauto;
    unfold Rltb in *; destruct Rlt_dec; auto; try lra; try discriminate.
Qed.
Lemma ranks_good scores : no_nan scores -> good (N := NumX) (fun e : string * NumX => nopp (snd e)) scores.
Proof.
  intros H. assert (H' : forall e, In e scores -> snd e <> NaN) by (intros [nm s] He; exact (H nm s He)).
  split.
  - intros x y Hx Hy. destruct (xle_total (snd x) (snd y)) as [Q|Q]; auto; [right|left]; apply opp_le; auto.
  - intros x y z Hx Hy Hz E1 E2. apply opp_le in E1; auto. apply opp_le in E2; auto. apply opp_le; auto. eapply xle_trans; eassumption.
Qed.
Lemma filter_ext_in' {A} (f g : A -> bool) l : (forall x, In x l -> f x = g x) -> filter f l = filter g l.
Proof. intros H. induction l as [|a l IH]; simpl; auto. rewrite H by now left. rewrite IH; auto. intros; apply H; now right. Qed.
Lemma ranks_at {N : Num} (order l1 l2 : list (string * N)) e : order = (l1 ++ e :: l2)%list ->
  In (fst e, S (length l1)) (map (fun ie => (fst (snd ie), S (fst ie))) (combine (seq 0 (length order)) order)).
Proof.
  intros ->. apply in_map_iff. exists (length l1, e). split; [reflexivity|].
  assert (G : forall k, In ((k + length l1)%nat, e) (combine (seq k (length (l1 ++ e :: l2))) (l1 ++ e :: l2))).
  { induction l1 as [|x l1 IH]; simpl; intros k; [left; f_equal; lia|right]. replace (k + S (length l1))%nat with (S k + length l1)%nat by lia. apply IH. }
  exact (G 0%nat).
Qed.
Lemma ranks_fst {N : Num} (sc : list (string * N)) : map fst (ranks sc) = map fst (sorted_num (fun e => nopp (snd e)) sc).
Proof.
  unfold ranks. rewrite map_map. cbn [fst]. generalize (sorted_num (fun e => nopp (snd e)) sc). intros l. generalize 0%nat.
  induction l as [|x l IH]; simpl; intros k; auto. f_equal. apply IH.
Qed.

(** Ranks are 1, 2, ..., n, each given once, to the n names. *)
Theorem C97_ranks_bijection {N : Num} (sc : list (string * N)) :
  map snd (ranks sc) = seq 1 (length sc) /\ Permutation (map fst (ranks sc)) (map fst sc).
Proof.
  assert (P := sorted_num_perm (fun e : string * N => nopp (snd e)) sc). split.
  - unfold ranks. rewrite map_map. cbn [snd]. rewrite <- (Permutation_length P). generalize (sorted_num (fun e => nopp (snd e)) sc). intros l.
    rewrite <- seq_shift. generalize 0%nat. induction l as [|x l IH]; simpl; intros k; auto. f_equal. apply IH.
  - rewrite ranks_fst. now apply Permutation_map.
Qed.
(** The rank of an entry: one more than the number of strictly better scores and of equal scores that come earlier.  Scores of
    +-infinity are allowed: an estimator that failed (-inf) ranks below every one that did not. *)
Theorem C97_rank (pre post : list (string * xreal)) nm s : no_nan (pre ++ (nm, s) :: post) ->
  NoDup (map fst (pre ++ (nm, s) :: post)) ->
  key (ranks (N := NumX) (pre ++ (nm, s) :: post)) nm =
    Ok (1 + length (filter (fun e => negb (beats s (snd e))) pre) + length (filter (fun e => beats (snd e) s) post))%nat.
Proof.
  intros HN ND. set (sc := (pre ++ (nm, s) :: post)%list) in *.
  assert (NN : forall e, In e sc -> snd e <> NaN) by (intros [a b] He; exact (HN a b He)).
  assert (Hs : s <> NaN) by (apply (HN nm); apply in_or_app; right; now left).
  destruct (sorted_at (N := NumX) (fun e : string * NumX => nopp (snd e)) pre (nm, s) post (ranks_good _ HN)) as (l1 & l2 & E1 & E2).
  apply key_nodup.
  { rewrite ranks_fst. apply (Permutation_NoDup (l := map fst sc)); auto. apply Permutation_map, Permutation_sym, sorted_num_perm. }
  assert (H := ranks_at (N := NumX) _ l1 l2 (nm, s) E1). cbn [fst] in H. unfold ranks. fold sc in E1, H.
  replace (1 + _ + _)%nat with (S (length l1)); [exact H|]. rewrite E2. unfold count. cbn [snd]. cbn [Nat.add]. f_equal. f_equal.
  - f_equal. apply filter_ext_in'. intros [a b] Hi. cbn [snd]. assert (Hb : b <> NaN) by (apply (HN a); apply in_or_app; now left).
    unfold beats. change (@nleb NumX (@nopp NumX b) (@nopp NumX s)) with (xleb (xopp b) (xopp s)).
    destruct (xleb (xopp b) (xopp s)) eqn:E, (xltb b s) eqn:F; auto; exfalso.
    + apply opp_le in E; auto. apply xltb_iff in F; auto.
    + assert (Q : ~ xle s b) by (intros Q; apply opp_le in Q; auto; congruence). apply xltb_iff in Q; auto. congruence.
  - f_equal. apply filter_ext_in'. intros [a b] Hi. cbn [snd]. assert (Hb : b <> NaN) by (apply (HN a); apply in_or_app; right; now right).
    unfold beats. change (@nleb NumX (@nopp NumX s) (@nopp NumX b)) with (xleb (xopp s) (xopp b)).
    destruct (xleb (xopp s) (xopp b)) eqn:E, (xltb s b) eqn:F; auto; exfalso.
    + apply opp_le in E; auto. apply xltb_iff in F; auto.
    + assert (Q : ~ xle b s) by (intros Q; apply opp_le in Q; auto; congruence). apply xltb_iff in Q; auto. cbn in E. congruence.
Qed.

(** ** Least and greatest by a key *)
Lemma first_max_split {A} (f : A -> xreal) l b : (forall x, In x l -> f x <> NaN) -> first_max (N := NumX) f l = Ok b ->
  exists pre post, l = pre ++ b :: post /\ (forall x, In x pre -> xltb (f x) (f b) = true) /\ (forall x, In x post -> xltb (f b) (f x) = false).
Proof.
  unfold first_max. destruct l as [|x0 l]; [discriminate|]. intros HN E. injection E as <-.
  assert (G : forall l pre b post, (forall x, In x (pre ++ b :: post ++ l) -> f x <> NaN) ->
     (forall x, In x pre -> xltb (f x) (f b) = true) -> (forall x, In x post -> xltb (f b) (f x) = false) ->
     let b' := fold_left (fun b y => if @nltb NumX (f b) (f y) then y else b) l b in
     exists pre' post', pre ++ b :: post ++ l = pre' ++ b' :: post' /\ (forall x, In x pre' -> xltb (f x) (f b') = true) /\ (forall x, In x post' -> xltb (f b') (f x) = false)).
  { clear. induction l as [|y l IH]; cbn [fold_left]; intros pre b post HN H1 H2.
    - exists pre, post. rewrite app_nil_r. auto.
    - change (@nltb NumX (f b) (f y)) with (xltb (f b) (f y)). destruct (xltb (f b) (f y)) eqn:E.
      + assert (HB : f b <> NaN) by (apply HN, in_or_app; right; now left).
        assert (HY : f y <> NaN) by (apply HN, in_or_app; right; right; apply in_or_app; right; now left).
        specialize (IH (pre ++ b :: post) y []). cbn [app] in IH. rewrite <- app_assoc in IH. cbn [app] in IH. apply IH.
        * intros x Hx. apply HN. exact Hx.
        * intros x Hx. assert (HX : f x <> NaN). { apply HN. apply in_app_or in Hx as [Hx|[<-|Hx]]; apply in_or_app; [now left|right; now left|right; right; apply in_or_app; now left]. }
          apply xltb_iff; auto. intros Q. apply xltb_iff in E; auto. apply in_app_or in Hx as [Hx|[<-|Hx]].
          -- specialize (H1 x Hx). apply xltb_iff in H1; auto. apply E. apply xltb_true. destruct (xltb (f y) (f b)) eqn:F; auto. exfalso. apply H1. eapply xle_trans; [|exact Q].
             apply xltb_false in F; auto.
          -- contradiction.
          -- specialize (H2 x Hx). apply E. apply xltb_false in H2; auto. eapply xle_trans; eassumption.
        * intros x [].
      + specialize (IH pre b (post ++ [y])). rewrite <- app_assoc in IH. cbn [app] in IH. apply IH; auto.
        intros x Hx. apply in_app_or in Hx as [Hx|[<-|[]]]; auto. }
  apply (G l [] x0 []); auto. intros x [].
Qed.
Lemma first_min_split {A} (f : A -> xreal) l b : (forall x, In x l -> f x <> NaN) -> first_min (N := NumX) f l = Ok b ->
  In b l /\ forall x, In x l -> xle (f b) (f x).
Proof.
  unfold first_min. destruct l as [|x0 l]; [discriminate|]. intros HN E. injection E as <-.
  assert (G : forall l b, f b <> NaN -> (forall x, In x l -> f x <> NaN) ->
     let b' := fold_left (fun b y => if @nltb NumX (f y) (f b) then y else b) l b in
     (b' = b \/ In b' l) /\ xle (f b') (f b) /\ forall x, In x l -> xle (f b') (f x)).
  { clear. induction l as [|y l IH]; cbn [fold_left]; intros b HB HN; [split; [now left|]; split; [now apply xle_refl|intros x []]|].
    change (@nltb NumX (f y) (f b)) with (xltb (f y) (f b)). destruct (xltb (f y) (f b)) eqn:E.
    - destruct (IH y) as (I1 & I2 & I3); [apply HN; now left|intros; apply HN; now right|]. cbn [In]; split; [destruct I1 as [I1|I1]; right; [left; symmetry; exact I1|right; exact I1]|].
      split; [eapply xle_trans; [exact I2|now apply xltb_true]|]. intros x [<-|Hx]; auto.
    - destruct (IH b) as (I1 & I2 & I3); [auto|intros; apply HN; now right|]. cbn [In]; split; [destruct I1 as [I1|I1]; [left; exact I1|right; right; exact I1]|].
      split; [exact I2|]. intros x [<-|Hx]; auto. eapply xle_trans; [exact I2|]. apply xltb_false; auto. apply HN. now left. }
  destruct (G l x0) as (I1 & I2 & I3); [apply HN; now left|intros; apply HN; now right|]. cbn [In]; split; [destruct I1 as [I1|I1]; [left; symmetry; exact I1|right; exact I1]|].
  intros x [<-|Hx]; auto.
Qed.

(** The winner of a scenario is the estimator ranked first there. *)
Theorem C97_winner_is_rank_one (results : list (string * list (string * list (string * xreal)))) primary cell nm :
  NoDup (map fst results) -> (forall r, In r results -> cell_score (N := NumX) primary cell r <> NaN) ->
  winner (N := NumX) results primary cell = Ok nm ->
  key (ranks (N := NumX) (map (fun r => (fst r, cell_score (N := NumX) primary cell r)) results)) nm = Ok 1%nat.
Proof.
  intros ND HN E. unfold winner in E. apply bind_ok in E as (b & E & Eb). injection Eb as <-.
  apply first_max_split in E as (pre & post & -> & H1 & H2); auto.
  rewrite map_app. cbn [map].
  assert (R := C97_rank (map (fun r => (fst r, cell_score (N := NumX) primary cell r)) pre) (map (fun r => (fst r, cell_score (N := NumX) primary cell r)) post)
    (fst b) (cell_score (N := NumX) primary cell b)).
  etransitivity; [apply R|].
  - intros n s Hi. change ((fst b, cell_score (N := NumX) primary cell b) :: map (fun r => (fst r, cell_score (N := NumX) primary cell r)) post)
      with (map (fun r => (fst r, cell_score (N := NumX) primary cell r)) (b :: post)) in Hi. rewrite <- map_app in Hi.
    apply in_map_iff in Hi as (r & Er & Hr). injection Er as _ <-. auto.
  - change ((fst b, cell_score (N := NumX) primary cell b) :: map (fun r => (fst r, cell_score (N := NumX) primary cell r)) post)
      with (map (fun r => (fst r, cell_score (N := NumX) primary cell r)) (b :: post)). rewrite <- map_app, map_map. exact ND.
  - apply f_equal.
    assert (F0 : forall (P : string * xreal -> bool) l, (forall e, In e l -> P e = false) -> length (filter P l) = 0%nat).
    { intros P l H. induction l as [|e l IH]; simpl; auto. rewrite H by now left. apply IH. intros; apply H; now right. }
    rewrite !F0; [reflexivity| |].
    + intros e He. apply in_map_iff in He as (r & <- & Hr). cbn [snd]. unfold beats. now apply H2.
    + intros e He. apply in_map_iff in He as (r & <- & Hr). cbn [snd]. unfold beats. now rewrite H1.
Qed.

(** ** _best_fixed *)
Lemma xsum_nat (l : list nat) : vsum (N := NumX) (map (fun r => nofn r) l) = Fin (INR (list_sum l)).
Proof.
  unfold vsum. assert (G : forall l a, fold_left (@nadd NumX) (map (fun r => nofn r) l) (Fin a) = Fin (a + INR (list_sum l))).
  { clear. induction l as [|x l IH]; cbn [map fold_left]; intros a; [simpl; f_equal; ring|]. change (@nadd NumX (Fin a) (nofn x)) with (Fin (a + IZR (Z.of_nat x))). rewrite IH.
    rewrite <- INR_IZR_INZ. change (list_sum (x :: l)) with (x + list_sum l)%nat. rewrite plus_INR. f_equal. ring. }
  change (@n0 NumX) with (Fin 0). rewrite G. f_equal. ring.
Qed.
Lemma mean_rank_fin (l : list nat) : l <> [] -> mean_rank (N := NumX) l = Fin (INR (list_sum l) / INR (length l)).
Proof.
  intros Hl. unfold mean_rank, vmean. rewrite xsum_nat, map_length. destruct (nofn_pos (length l)) as [-> Hn]; [destruct l; [contradiction|simpl; lia]|].
  cbn. unfold Reqb. destruct Req_EM_T; [lra|reflexivity].
Qed.
(** The estimator chosen as the best fixed one has the least total rank over the trials. *)
Theorem C97_best_fixed (trials : list (list (string * xreal))) names : names <> [] -> NoDup names -> trials <> [] ->
  (forall t, In t trials -> Permutation (map fst t) names) ->
  exists nm rs, best_fixed (N := NumX) trials = Ok nm /\ In nm names /\
    mapM (fun t => key (ranks (N := NumX) t) nm) trials = Ok rs /\
    forall nm', In nm' names -> exists rs', mapM (fun t => key (ranks (N := NumX) t) nm') trials = Ok rs' /\ (list_sum rs <= list_sum rs')%nat.
Proof.
  intros Hn ND Ht HP.
  assert (HK : forall nm, In nm names -> exists rs, mapM (fun t => key (ranks (N := NumX) t) nm) trials = Ok rs /\ length rs = length trials).
  { intros nm Hnm. assert (X : forall t, In t trials -> exists v, key (ranks (N := NumX) t) nm = Ok v).
    { intros t Hi. apply key_some. destruct (C97_ranks_bijection (N := NumX) t) as [_ P]. apply (Permutation_in nm (Permutation_sym P)).
      apply (Permutation_in nm (Permutation_sym (HP t Hi))). exact Hnm. }
    clear -X. induction trials as [|t l IH]; [exists []; auto|]. destruct (X t (or_introl eq_refl)) as (v & Ev). destruct IH as (rs & Er & Hl); [auto with *|].
    exists (v :: rs). cbn [mapM]. rewrite Ev. cbn [bind]. rewrite Er. simpl. auto. }
  assert (HI : exists rt, trials <> [] -> rt = hd [] trials) by eauto.
  unfold best_fixed. destruct trials as [|t0 trials']; [contradiction|]. set (trials := t0 :: trials') in *.
  assert (P0 : Permutation (map fst (ranks (N := NumX) t0)) names).
  { destruct (C97_ranks_bijection (N := NumX) t0) as [_ P]. etransitivity; [exact P|]. apply HP. now left. }
  assert (EA : exists acc, mapM (fun e : string * nat => l <- mapM (fun s => key (ranks (N := NumX) s) (fst e)) trials ;; Ok (fst e, l)) (ranks (N := NumX) t0) = Ok acc /\
     (forall e, In e acc -> mapM (fun s => key (ranks (N := NumX) s) (fst e)) trials = Ok (snd e) /\ length (snd e) = length trials) /\ map fst acc = map fst (ranks (N := NumX) t0)).
  { assert (X : forall e, In e (ranks (N := NumX) t0) -> In (fst e) names) by (intros e He; apply (Permutation_in _ P0), in_map, He).
    revert X. generalize (ranks (N := NumX) t0). induction l as [|e l IH]; intros X; [exists []; split; [reflexivity|]; split; [intros e []|reflexivity]|].
    destruct (HK (fst e)) as (rs & Er & Hl); [apply X; now left|]. destruct IH as (acc & Ea & Ha & Hf); [intros; apply X; now right|].
    exists ((fst e, rs) :: acc). cbn [mapM]. rewrite Er. cbn [bind]. rewrite Ea. cbn [bind]. split; [reflexivity|]. split; [intros e' [<-|He']; [cbn [fst snd]; split; [exact Er|exact Hl]|exact (Ha e' He')]|]. cbn [map fst]. f_equal. exact Hf. }
  destruct EA as (acc & -> & Ha & Hf). cbn [bind].
  assert (HM : forall e, In e acc -> mean_rank (N := NumX) (snd e) = Fin (INR (list_sum (snd e)) / INR (length trials))).
  { intros e He. destruct (Ha e He) as [_ Hl]. rewrite mean_rank_fin, Hl; [reflexivity|]. intros E. rewrite E in Hl. discriminate. }
  assert (Hne : acc <> []). { intros ->. cbn in Hf. rewrite <- Hf in P0. apply Permutation_nil in P0. contradiction. }
  assert (EF : exists b, first_min (N := NumX) (fun e => mean_rank (N := NumX) (snd e)) acc = Ok b) by (unfold first_min; destruct acc; [contradiction|eauto]).
  destruct EF as (b & EF). rewrite EF. cbn [bind]. apply first_min_split in EF as [Hb Hmin]; [|intros x Hx; rewrite HM by auto; discriminate].
  exists (fst b), (snd b). split; [reflexivity|]. split; [apply (Permutation_in _ P0); rewrite <- Hf; now apply in_map|]. split; [now apply Ha|].
  intros nm' Hnm'. apply (Permutation_in _ (Permutation_sym P0)) in Hnm'. rewrite <- Hf in Hnm'. apply in_map_iff in Hnm' as (e & <- & He).
  exists (snd e). split; [now apply Ha|]. specialize (Hmin e He). rewrite !HM in Hmin by auto. cbn in Hmin.
  apply INR_le. assert (HT : (0 < INR (S (length trials')))%R) by (apply lt_0_INR; lia).
  change (length trials) with (S (length trials')) in Hmin. apply (Rmult_le_compat_r _ _ _ (Rlt_le _ _ HT)) in Hmin. unfold Rdiv in Hmin. rewrite !Rmult_assoc, Rinv_l in Hmin by lra. lra.
Qed.

(** ** One trial, and the bake-off *)
Section Trial.
  Context {N : Num} (L : LinAlg N) (fuel : nat) (model : bool).
(** A trial scores every registered estimator; one that raises (when fitted or when scored) gets -inf and does not stop the others. *)
Theorem C97_trial a train test sc rec : trial L fuel model a train test = Ok (sc, rec) ->
  map fst sc = estimator_names L fuel /\
  (forall k s, In k (signatures L fuel) -> In (c_name (sg_class k), s) sc ->
     (exists cov, fit_cov k train = Ok cov /\ assess L a cov (Some test) None = Ok s) \/
     (s = minus_inf /\ forall cov v, fit_cov k train = Ok cov -> assess L a cov (Some test) None = Ok v -> False)) /\
  exists r, suggest L model fuel (In2 train) 1 = Ok [r] /\ rec = c_name (rg_class r).
Proof.
  unfold trial. intros E. apply bind_ok in E as (sc' & E1 & E). apply bind_ok in E as (top & E2 & E).
  destruct (suggest_one _ _ _ _ _ E2) as (r & -> & Hr). cbn [bind] in E. injection E as <- <-.
  split; [|split; [|eauto]].
  - rewrite <- names_eq. refine (mapM_fst _ _ _ _ _ E1). intros k x Hx. apply bind_ok in Hx as (l & _ & Hx). now injection Hx as <-.
  - intros k s Hk Hs. destruct (mapM_in _ _ _ E1 _ Hs) as (k' & Hk' & Ek). apply bind_ok in Ek as (s' & F & Ek). injection Ek as Hn <-.
    apply (ests_inj L fuel) in Hn; auto. subst k'. destruct (fit_cov k train) as [cov|e] eqn:Ef; cbn [bind] in F.
    + destruct (assess L a cov (Some test) None) as [v|e] eqn:Ea; cbn in F.
      * injection F as <-. left. eauto.
      * right. split; [destruct e; congruence|]. intros cov' v E0 Ev. injection E0 as <-. congruence.
    + right. split; [destruct e; cbn in F; congruence|]. intros cov' v E0. discriminate.
Qed.
(** It fails only when the recommender does. *)
Theorem C97_trial_fails_with_the_recommender a train test e : trial L fuel model a train test = Err e ->
  e = FuelExhausted \/ suggest L model fuel (In2 train) 1 = Err e.
Proof.
  unfold trial. intros E. destruct (mapM _ _) as [sc|e'] eqn:E1; cbn [bind] in E.
  - right. destruct (suggest L model fuel (In2 train) 1) as [top|e''] eqn:E2; cbn [bind] in E; [|congruence].
    destruct (suggest_one _ _ _ _ _ E2) as (r & -> & Hr). discriminate.
  - left. injection E as <-. clear -E1. revert E1. generalize (ests L fuel). induction l as [|k l IH]; [discriminate|]. cbn [mapM]. unfold or_minus_inf.
    destruct (_ <- fit_cov k train ;; _) as [v|x].
    + cbn [bind]. destruct (mapM _ l) eqn:E; cbn [bind]; [discriminate|]. intros H. injection H as ->. apply IH. reflexivity.
    + destruct x; cbn [bind]; intros H; try (injection H as <-; reflexivity); (destruct (mapM _ l) eqn:E; cbn [bind] in H; [discriminate|injection H as ->; apply IH; reflexivity]).
Qed.
End Trial.

Section Bake.
  Context {N : Num} (L : LinAlg N) (fuel : nat).
(** The bake-off: a finished run has one entry per estimator and scenario, and each score there is the assessor's on the estimator's
    fit to the training rows alone, or -inf when the assessor raised. *)
Theorem C97_run scs results : run L fuel scs = Ok results -> NoDup (map (fun sc : scenario => fst (fst (fst sc))) scs) ->
  map fst results = estimator_names L fuel /\
  forall k, In k (signatures L fuel) -> exists cells, In (c_name (sg_class k), cells) results /\
    map fst cells = map (fun sc : scenario => fst (fst (fst sc))) scs /\
    forall nm train test truth, In (nm, train, test, truth) scs -> exists cov scores,
      In (nm, scores) cells /\ fit_cov k train = Ok cov /\
      map fst scores = map (aname (N := N)) (filter (fun a => usable a true true) all_assessors) /\
      forall a : assessor (N := N), In a all_assessors -> usable a true true = true -> exists s, In (aname a, s) scores /\
        (assess L a cov (Some test) (Some truth) = Ok s \/
         (s = minus_inf /\ exists e, e <> FuelExhausted /\ assess L a cov (Some test) (Some truth) = Err e)).
Proof.
  unfold run. intros E ND. apply bind_ok in E as (grid & E1 & E2).
  assert (HF : map fst results = map est_name (ests L fuel)).
  { refine (mapM_fst _ _ _ _ _ E2). intros k x Hx. apply bind_ok in Hx as (l & _ & Hx). now injection Hx as <-. }
  split; [now rewrite HF, names_eq|].
  assert (HG : map fst grid = map (fun sc : scenario => fst (fst (fst sc))) scs).
  { refine (mapM_fst _ (fun sc : scenario => fst (fst (fst sc))) _ _ _ E1). intros [[[nm tr] te] tc] x Hx. apply bind_ok in Hx as (row & _ & Hx). now injection Hx as <-. }
  intros k Hk. destruct (mapM_in' _ _ _ E2 k Hk) as (r & Hr & Er). apply bind_ok in Er as (cells & Ec & Er). injection Er as <-.
  exists cells. split; [exact Hr|]. split.
  { rewrite <- HG. refine (mapM_fst _ fst _ _ _ Ec). intros g x Hx. apply bind_ok in Hx as (s & _ & Hx). now injection Hx as <-. }
  intros nm train test truth Hsc. destruct (mapM_in' _ _ _ E1 _ Hsc) as (g & Hg & Eg). cbn beta iota in Eg. apply bind_ok in Eg as (row & Erow & Eg). injection Eg as <-.
  destruct (mapM_in' _ _ _ Ec _ Hg) as (cell & Hcell & Ecell). cbn [fst snd] in Ecell. apply bind_ok in Ecell as (s & Es & Ecell). injection Ecell as <-.
  destruct (mapM_in' _ _ _ Erow k Hk) as (en & Hen & Een). apply bind_ok in Een as (cov & Ecov & Een). apply bind_ok in Een as (s' & Es' & Een). injection Een as <-.
  assert (s = s').
  { assert (X : key row (est_name k) = Ok s').
    { apply key_nodup; auto. replace (map fst row) with (map est_name (ests L fuel)); [apply names_nodup|]. symmetry.
      refine (mapM_fst _ _ _ _ _ Erow). intros k0 x Hx. apply bind_ok in Hx as (c0 & _ & Hx). apply bind_ok in Hx as (c1 & _ & Hx). now injection Hx as <-. }
    congruence. }
  subst s'. exists cov, s. split; [exact Hcell|]. split; [exact Ecov|]. unfold cell_scores in Es'. split.
  { refine (mapM_fst _ (aname (N := N)) _ _ _ Es'). intros a x Hx. apply bind_ok in Hx as (v & _ & Hx). now injection Hx as <-. }
  intros a Ha Hu. destruct (mapM_in' _ _ _ Es' a) as (e & He & Ee); [apply filter_In; auto|]. apply bind_ok in Ee as (v & Ev & Ee). injection Ee as <-.
  exists v. split; [exact He|]. destruct (assess L a cov (Some test) (Some truth)) as [v0|x] eqn:EA; cbn in Ev; [left; congruence|right].
  destruct x; try discriminate; split; try congruence; eexists; split; try reflexivity; discriminate.
Qed.
(** An estimator that raises while it is fitted stops the whole bake-off (in [trial] it would only lose that trial). *)
Theorem C97_run_fit_error nm train test truth pre post e k prek postk : signatures L fuel = prek ++ k :: postk ->
  fit_cov k train = Err e ->
  exists e', run L fuel (pre ++ (nm, train, test, truth) :: post) = Err e'.
Proof.
  intros HK HE. unfold run.
  match goal with |- exists _, (bind ?m _ = _) => destruct m as [grid|e'] eqn:E1 end; cbn [bind]; [exfalso|eauto].
  destruct (mapM_in' _ _ _ E1 (nm, train, test, truth)) as (g & _ & Eg); [apply in_or_app; right; now left|].
  cbn beta iota in Eg. apply bind_ok in Eg as (row & Erow & _).
  destruct (mapM_in' _ _ _ Erow k) as (en & _ & Een); [unfold ests; rewrite HK; apply in_or_app; right; now left|].
  apply bind_ok in Een as (cov & Ecov & _). congruence.
Qed.
End Bake.

(** ** The leaderboard *)
Definition is_fin (x : xreal) : bool := match x with Fin _ => true | _ => false end.
Lemma nfinite_fin (x : xreal) : nfinite (N := NumX) x = is_fin x.
Proof. destruct x; reflexivity. Qed.
Lemma filter_fins (l : list xreal) : exists vs, filter (nfinite (N := NumX)) l = map (fun v => Fin v : NumX) vs.
Proof.
  induction l as [|x l (vs & IH)]; [exists []; reflexivity|]. cbn [filter]. rewrite nfinite_fin. destruct x; cbn [is_fin]; eauto.
  exists (r :: vs). cbn [map]. f_equal. exact IH.
Qed.
Fixpoint fin_values (l : list xreal) : list R := match l with [] => [] | Fin v :: l => v :: fin_values l | _ :: l => fin_values l end.
Lemma filter_fin_values (l : list xreal) : filter (nfinite (N := NumX)) l = map (fun v => Fin v : NumX) (fin_values l).
Proof. induction l as [|x l IH]; [reflexivity|]. cbn [filter]. rewrite nfinite_fin. destruct x; cbn [is_fin fin_values map]; auto. f_equal. exact IH. Qed.
Lemma xsum_fin (vs : list R) : vsum (N := NumX) (map (fun v => Fin v : NumX) vs) = Fin (fold_right Rplus 0%R vs).
Proof.
  unfold vsum. assert (G : forall l a, fold_left (@nadd NumX) (map (fun v => Fin v : NumX) l) (Fin a) = Fin (a + fold_right Rplus 0%R l)).
  { clear. induction l as [|x l IH]; cbn [map fold_left]; intros a; [simpl; f_equal; ring|]. change (@nadd NumX (Fin a) (Fin x)) with (Fin (a + x)%R). rewrite IH. cbn. f_equal. ring. }
  change (@n0 NumX) with (Fin 0). rewrite G. f_equal. ring.
Qed.
(** The mean score shown for an estimator is over its finite scores only: a scenario it failed in is left out, not counted as bad. *)
Theorem C97_mean_skips_failures (cells : list (string * list (string * xreal))) primary vs :
  fin_values (map (fun c => match key (snd c) primary with Ok v => v | Err _ => NaN end) cells) = vs ->
  bake_mean (N := NumX) cells primary = match vs with [] => NInf | _ => Fin (fold_right Rplus 0%R vs / INR (length vs)) end.
Proof.
  intros E. unfold bake_mean.
  replace (filter _ _) with (map (fun v => Fin v : NumX) vs).
  2:{ symmetry. rewrite <- E. apply filter_fin_values. }
  destruct vs as [|v vs]; [cbn; unfold Reqb; destruct Req_EM_T; [|lra]; unfold Rltb; destruct Rlt_dec; [reflexivity|lra]|].
  cbn [map]. change ((Fin v : NumX) :: map (fun v => Fin v : NumX) vs) with (map (fun v => Fin v : NumX) (v :: vs)).
  unfold vmean. rewrite xsum_fin, map_length. destruct (nofn_pos (length (v :: vs))) as [-> Hn]; [simpl; lia|].
  cbn [ndiv NumX xdiv]. unfold Reqb. destruct Req_EM_T; [lra|reflexivity].
Qed.

(** The average ranks of the leaderboard always add up to n (n + 1) / 2: one estimator's gain is another's loss, and no score, not
    even -inf for a failure, costs more than a place. *)
Definition place (results : list (string * list (string * list (string * xreal)))) primary c nm : nat :=
  match key (ranks (N := NumX) (map (fun r' => (fst r', cell_score (N := NumX) primary c r')) results)) nm with Ok v => v | Err _ => 0%nat end.
Lemma list_sum_perm l l' : Permutation l l' -> list_sum l = list_sum l'.
Proof. induction 1; simpl; lia. Qed.
Lemma key_places (d : list (string * nat)) : NoDup (map fst d) -> map (fun nm => match key d nm with Ok v => v | Err _ => 0%nat end) (map fst d) = map snd d.
Proof.
  intros ND. rewrite map_map. apply map_ext_in. intros [nm v] Hi. cbn [fst snd]. now rewrite (key_nodup d nm v ND Hi).
Qed.
Lemma place_sum results primary c : NoDup (map fst results) -> list_sum (map (place results primary c) (map fst results)) = list_sum (seq 1 (length results)).
Proof.
  intros ND. set (sc := map (fun r' => (fst r', cell_score (N := NumX) primary c r')) results).
  assert (Es : map fst sc = map fst results) by (unfold sc; rewrite map_map; reflexivity).
  destruct (C97_ranks_bijection (N := NumX) sc) as [R1 R2]. rewrite Es in R2.
  replace (length results) with (length sc) by apply map_length. rewrite <- R1.
  rewrite <- key_places by (apply (Permutation_NoDup (Permutation_sym R2)); exact ND).
  apply list_sum_perm. unfold place. fold sc. apply Permutation_map. now apply Permutation_sym.
Qed.
Lemma list_sum_swap {A B} (f : A -> B -> nat) l l' : list_sum (map (fun a => list_sum (map (f a) l')) l) = list_sum (map (fun b => list_sum (map (fun a => f a b) l)) l').
Proof.
  induction l as [|a l IH]; simpl; [induction l'; simpl; auto|].
  rewrite IH. clear IH. induction l' as [|b l' IH]; simpl; auto. lia.
Qed.
Lemma list_sum_const {A} (f : A -> nat) k l : (forall a, In a l -> f a = k) -> list_sum (map f l) = (length l * k)%nat.
Proof. induction l as [|a l IH]; intros H; [reflexivity|]. cbn [map length Nat.mul]. change (list_sum (f a :: map f l)) with (f a + list_sum (map f l))%nat. rewrite H, IH; auto with *. Qed.
Lemma gauss n : (2 * list_sum (seq 1 n) = n * (n + 1))%nat.
Proof. induction n; [reflexivity|]. rewrite seq_S, list_sum_app. cbn [list_sum fold_right]. lia. Qed.
Theorem C97_average_ranks (results : list (string * list (string * list (string * xreal)))) cells primary : NoDup (map fst results) -> cells <> [] ->
  exists avg, avg_ranks (N := NumX) results cells primary = Ok (map (fun r => (fst r, Fin (avg (fst r)) : NumX)) results) /\
    (forall nm, In nm (map fst results) -> exists rs, mapM (fun c => key (ranks (N := NumX) (map (fun r' => (fst r', cell_score (N := NumX) primary c r')) results)) nm) cells = Ok rs /\
       avg nm = (INR (list_sum rs) / INR (length cells))%R) /\
    fold_right Rplus 0%R (map (fun r => avg (fst r)) results) = (INR (length results) * (INR (length results) + 1) / 2)%R.
Proof.
  intros ND Hc. set (pl := place results primary).
  assert (HP : forall nm c, In nm (map fst results) -> key (ranks (N := NumX) (map (fun r' => (fst r', cell_score (N := NumX) primary c r')) results)) nm = Ok (pl c nm)).
  { intros nm c Hn. unfold pl, place. destruct (key_some (ranks (N := NumX) (map (fun r' => (fst r', cell_score (N := NumX) primary c r')) results)) nm) as (v & ->); [|reflexivity].
    destruct (C97_ranks_bijection (N := NumX) (map (fun r' => (fst r', cell_score (N := NumX) primary c r')) results)) as [_ P].
    apply (Permutation_in nm (Permutation_sym P)). rewrite map_map. exact Hn. }
  assert (HM : forall nm cs, In nm (map fst results) -> mapM (fun c => key (ranks (N := NumX) (map (fun r' => (fst r', cell_score (N := NumX) primary c r')) results)) nm) cs = Ok (map (fun c => pl c nm) cs)).
  { intros nm cs Hn. induction cs as [|c cs IH]; [reflexivity|]. cbn [mapM map]. rewrite HP by auto. cbn [bind]. now rewrite IH. }
  exists (fun nm => INR (list_sum (map (fun c => pl c nm) cells)) / INR (length cells))%R. split; [|split].
  - unfold avg_ranks.
    assert (G : forall rs : list (string * list (string * list (string * xreal))), (forall r, In r rs -> In (fst r) (map fst results)) ->
      mapM (fun r => l <- mapM (fun c => key (ranks (N := NumX) (map (fun r' => (fst r', cell_score (N := NumX) primary c r')) results)) (fst r)) cells ;; Ok (fst r, mean_rank (N := NumX) l)) rs
      = Ok (map (fun r => (fst r, Fin (INR (list_sum (map (fun c => pl c (fst r)) cells)) / INR (length cells))%R : NumX)) rs)).
    { induction rs as [|r rs IH]; intros H; [reflexivity|]. cbn [mapM map]. rewrite HM by (apply H; now left). cbn [bind].
      rewrite mean_rank_fin by (destruct cells; [contradiction|discriminate]). rewrite map_length.
      rewrite IH by (intros; apply H; now right). reflexivity. }
    apply G. intros r Hr. now apply in_map.
  - intros nm Hn. exists (map (fun c => pl c nm) cells). split; [now apply HM|reflexivity].
  - assert (Hk : (0 < INR (length cells))%R) by (apply lt_0_INR; destruct cells; [contradiction|simpl; lia]).
    assert (G : forall rs : list (string * list (string * list (string * xreal))), fold_right Rplus 0%R (map (fun r => (INR (list_sum (map (fun c => pl c (fst r)) cells)) / INR (length cells))%R) rs)
       = (INR (list_sum (map (fun r => list_sum (map (fun c => pl c (fst r)) cells)) rs)) / INR (length cells))%R).
    { induction rs as [|r rs IH]; [simpl; field; lra|]. change (list_sum (map ?f (r :: rs))) with (f r + list_sum (map f rs))%nat. cbn [map fold_right]. rewrite IH, plus_INR. field. lra. }
    rewrite G. rewrite list_sum_swap, (list_sum_const _ (list_sum (seq 1 (length results)))).
    2:{ intros c _. rewrite <- (place_sum results primary c ND), map_map. reflexivity. }
    assert (GS := f_equal INR (gauss (length results))). rewrite !mult_INR, plus_INR in GS. change (INR 2) with 2%R in GS. change (INR 1) with 1%R in GS.
    rewrite mult_INR. rewrite <- GS. field. lra.
Qed.

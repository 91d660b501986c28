(** * C96: the rolling out-of-sample harness of research/oos_equity.py *)
From Coq Require Import Reals ZArith Bool String List Lia Lra Arith.
From Verif Require Import Num Numpy PyVal LinalgModel StateModel BaseModel Estimators RegistryModel ParamsModel AssessModel RecommendModel
  Spec ListLemmas OosModel OosSpec Props_Params Props_Recommend.
Import ListNotations.
Local Open Scope string_scope.

Lemma bind_ok {A B} (m : res A) (f : A -> res B) b : (x <- m ;; f x) = Ok b -> exists a, m = Ok a /\ f a = Ok b.
Proof. destruct m; simpl; [eauto|discriminate]. Qed.
Lemma mapM_in {A B} (f : A -> res B) l l' : mapM f l = Ok l' -> forall b, In b l' -> exists a, In a l /\ f a = Ok b.
Proof.
  revert l'. induction l as [|a l IH]; simpl; intros l' E b Hb.
  - injection E as <-. contradiction.
  - apply bind_ok in E as (x & E1 & E). apply bind_ok in E as (y & E2 & E). injection E as <-. destruct Hb as [<-|Hb]; [now exists a; auto|].
    destruct (IH y E2 b Hb) as (c & ? & ?). exists c. auto.
Qed.
Lemma mapM_in' {A B} (f : A -> res B) l l' : mapM f l = Ok l' -> forall a, In a l -> exists b, In b l' /\ f a = Ok b.
Proof.
  revert l'. induction l as [|a l IH]; simpl; intros l' E b Hb; [contradiction|].
  apply bind_ok in E as (x & E1 & E). apply bind_ok in E as (y & E2 & E). injection E as <-. destruct Hb as [->|Hb]; [now exists x; auto with *|].
  destruct (IH y E2 b Hb) as (c & ? & ?). exists c. auto with *.
Qed.
Lemma mapM_fst {A B} (f : A -> res (string * B)) (nm : A -> string) l l' : (forall a x, f a = Ok x -> fst x = nm a) -> mapM f l = Ok l' -> map fst l' = map nm l.
Proof.
  intros H. revert l'. induction l as [|a l IH]; simpl; intros l' E.
  - now injection E as <-.
  - apply bind_ok in E as (x & E1 & E). apply bind_ok in E as (y & E2 & E). injection E as <-. simpl. f_equal; auto.
Qed.
Lemma key_in {A} (d : list (string * A)) k v : key d k = Ok v -> In (k, v) d.
Proof.
  unfold key. destruct (find _ d) as [e|] eqn:E; [|discriminate]. intros H. injection H as <-.
  apply find_some in E as [H1 H2]. apply String.eqb_eq in H2. subst. now destruct e.
Qed.
Lemma key_some {A} (d : list (string * A)) k : In k (map fst d) -> exists v, key d k = Ok v.
Proof.
  unfold key. intros H. destruct (find _ d) as [e|] eqn:E; [eauto|]. apply in_map_iff in H as (e & <- & H).
  assert (H' := find_none _ _ E e H). simpl in H'. now rewrite String.eqb_refl in H'.
Qed.
Lemma key_nodup {A} (d : list (string * A)) k v : NoDup (map fst d) -> In (k, v) d -> key d k = Ok v.
Proof.
  unfold key. induction d as [|[k' v'] d IH]; simpl; intros HN Hi; [contradiction|]. inversion HN; subst.
  destruct Hi as [E|Hi].
  - injection E as -> ->. now rewrite String.eqb_refl.
  - destruct (String.eqb_spec k' k) as [->|Hk]; [|auto]. exfalso. apply H1. apply in_map_iff. now exists (k, v).
Qed.

Section Names.
  Context {N : Num} (L : LinAlg N) (fuel : nat).
  Lemma names_eq : map est_name (ests L fuel) = estimator_names L fuel.
  Proof. reflexivity. Qed.
  Lemma names_nodup : NoDup (map est_name (ests L fuel)).
  Proof. repeat (constructor; [cbn; intros H; repeat (destruct H as [H|H]; [discriminate|]); contradiction|]). constructor. Qed.
  Lemma name_known (r : Registered N) : In r (all_estimators L fuel) -> In (name_of r) (map est_name (ests L fuel)).
  Proof. intros H. rewrite names_eq. unfold estimator_names. now apply (in_map (fun r => c_name (rg_class r))). Qed.
  Lemma ests_inj k k' : In k (ests L fuel) -> In k' (ests L fuel) -> est_name k = est_name k' -> k = k'.
  Proof.
    generalize names_nodup. generalize (ests L fuel). intros l. induction l as [|a l IH]; simpl; intros HN H H' E; [contradiction|]. inversion HN; subst.
    destruct H as [<-|H], H' as [<-|H']; auto.
    - exfalso. apply H2. rewrite E. now apply in_map.
    - exfalso. apply H2. rewrite <- E. now apply in_map.
  Qed.
End Names.

Section Window.
  Context {N : Num} (L : LinAlg N) (fuel : nat) (model : bool).
  Lemma rows_slice {A} i j (l : list A) : slice i j l = rows_between i j l. Proof. reflexivity. Qed.
  Lemma starts_len T a b s : 1 <= s -> starts (T + 1 - (a + b)) s = map (fun j => j * s) (seq 0 (windows T a b s)).
  Proof.
    intros Hs. unfold starts. f_equal. f_equal. unfold windows. destruct (Nat.ltb_spec T (a + b)) as [H|H].
    - replace (T + 1 - (a + b)) with 0 by lia. apply Nat.div_small. lia.
    - replace (T + 1 - (a + b) + s - 1) with (T - a - b + 1 * s) by lia. rewrite Nat.div_add by lia. reflexivity.
  Qed.

  Lemma suggest_one X l : suggest L model fuel X 1 = Ok l -> exists r, l = [r] /\ In r (all_estimators L fuel).
  Proof.
    unfold suggest. intros E. apply bind_ok in E as (f & E1 & E). apply bind_ok in E as (rk & E2 & E). injection E as <-.
    destruct (ranking_perm L fuel model f) as (rk' & E3 & P). rewrite E2 in E3. injection E3 as <-.
    destruct rk as [|r rk]; [apply Permutation.Permutation_length in P; discriminate|].
    exists r. split; [reflexivity|]. apply (Permutation.Permutation_in r P). now left.
  Qed.

  Lemma window_ok R a b t w : window_at L fuel model R a b t = Ok w ->
    map fst (w_this w) = map est_name (ests L fuel) /\
    (forall k v, In k (ests L fuel) -> In (est_name k, v) (w_this w) -> exists cov,
       fit_cov k (slice t (t + a) R) = Ok cov /\ assess L GMVVariance cov (Some (slice (t + a) (t + a + b) R)) None = Ok (nopp v)) /\
    (exists r, suggest L model fuel (In2 (slice t (t + a) R)) 1 = Ok [r] /\ w_rec w = name_of r /\ In (w_rec w) (map est_name (ests L fuel))) /\
    key (w_this w) (w_rec w) = Ok (w_pick w) /\
    py_minimum (map snd (w_this w)) = Ok (w_oracle w) /\
    realised (slice (t + a) (t + a + b) R) (vdivs (vones (ncols R)) (nofn (ncols R))) = Ok (w_equal w).
  Proof.
    unfold window_at. intros E. apply bind_ok in E as (this & E1 & E). apply bind_ok in E as (top & E2 & E).
    destruct (suggest_one _ _ E2) as (r & -> & Hr). cbn [bind] in E.
    apply bind_ok in E as (pick & E3 & E). apply bind_ok in E as (orc & E4 & E). apply bind_ok in E as (eq & E5 & E). injection E as <-.
    cbn [w_this w_rec w_pick w_oracle w_equal].
    split; [|split; [|split; [|auto]]].
    - refine (mapM_fst _ _ _ _ _ E1). intros k x Hx. { apply bind_ok in Hx as (c & _ & Hx). apply bind_ok in Hx as (v & _ & Hx). apply bind_ok in Hx as (v' & _ & Hx). now injection Hx as <-. }
    - intros k v Hk Hv. destruct (mapM_in _ _ _ E1 _ Hv) as (k' & Hk' & Ek).
      apply bind_ok in Ek as (cov & F1 & Ek). apply bind_ok in Ek as (wt & F2 & Ek). apply bind_ok in Ek as (v' & F3 & Ek). injection Ek as Hn ->.
      apply (ests_inj L fuel) in Hn; auto. subst k'. exists cov. split; [exact F1|].
      cbn [assess]. unfold gmv. unfold gmv_weights in F2. apply bind_ok in F2 as (P & G1 & F2). apply bind_ok in F2 as (w0 & G2 & F2). injection F2 as <-.
      rewrite G1. cbn [bind]. rewrite G2. cbn [bind]. unfold realised in F3. apply bind_ok in F3 as (rr & G3 & F3). injection F3 as <-. rewrite G3. reflexivity.
    - exists r. split; [exact E2|]. split; [reflexivity|]. now apply name_known.
  Qed.
End Window.

(** [range] of a zero step *)
Theorem C96_zero_step {N : Num} (L : LinAlg N) fuel model R a b : rolling_oos L fuel model R a b 0 = Err ValueError.
Proof. reflexivity. Qed.

Lemma rolling_ok {N : Num} (L : LinAlg N) fuel model R a b s o : rolling_oos L fuel model R a b s = Ok o ->
  1 <= s /\ exists ws, length ws = windows (nrows R) a b s /\
  (forall j d, j < windows (nrows R) a b s -> window_at L fuel model R a b (j * s) = Ok (nth j ws d)) /\
  mapM (fun k => l <- mapM (fun w => key (w_this w) (est_name k)) ws ;; Ok (est_name k, annvol l)) (ests L fuel) = Ok (o_fixed o) /\
  o_rec o = annvol (map w_pick ws) /\ o_oracle o = annvol (map w_oracle ws) /\ o_equal o = annvol (map w_equal ws) /\
  o_counts o = fold_left (fun c w => bump (w_rec w) c) ws [].
Proof.
  unfold rolling_oos. destruct (Nat.eqb_spec s 0) as [->|Hs]; [discriminate|]. intros E.
  apply bind_ok in E as (ws & E1 & E). apply bind_ok in E as (fx & E2 & E). injection E as <-. cbn [o_fixed o_rec o_oracle o_equal o_counts].
  split; [lia|]. exists ws. rewrite starts_len in E1 by lia.
  assert (HL := mapM_length _ _ _ E1). rewrite map_length, seq_length in HL. split; [exact HL|]. split; [|auto].
  intros j d Hj. assert (H := mapM_nth _ _ _ j 0 d E1). rewrite map_length, seq_length in H. rewrite <- (H Hj). f_equal.
  rewrite (nth_indep _ _ (0 * s)) by (rewrite map_length, seq_length; lia).
  rewrite (map_nth (fun j => j * s)), seq_nth by lia. reflexivity.
Qed.

(** The reported volatility of every registered estimator: there is one value per window, the square root of 252 times their mean is
    reported, and each is minus the GMVVariance score, on the window's test rows, of the covariance that estimator (with default
    parameters) reports after fit on the window's training rows. *)
Theorem C96_fixed {N : Num} (L : LinAlg N) fuel model R a b s o : rolling_oos L fuel model R a b s = Ok o ->
  map fst (o_fixed o) = estimator_names L fuel /\
  forall k v, In k (signatures L fuel) -> In (c_name (sg_class k), v) (o_fixed o) ->
    exists vs : list N, length vs = windows (nrows R) a b s /\ v = nsqrt (nmul (nofZ 252) (vmean vs)) /\
      forall j d, j < windows (nrows R) a b s -> exists cov,
        fit_cov k (train_rows a s j R) = Ok cov /\
        assess L GMVVariance cov (Some (test_rows a b s j R)) None = Ok (nopp (nth j vs d)).
Proof.
  intros E. destruct (rolling_ok _ _ _ _ _ _ _ _ E) as (Hs & ws & Hl & Hw & Hf & _).
  split.
  - rewrite <- names_eq. refine (mapM_fst _ _ _ _ _ Hf). intros k x Hx. apply bind_ok in Hx as (l & _ & Hx). now injection Hx as <-.
  - intros k v Hk Hv. destruct (mapM_in _ _ _ Hf _ Hv) as (k' & Hk' & Ek). apply bind_ok in Ek as (l & F1 & Ek). injection Ek as Hn <-.
    apply (ests_inj L fuel) in Hn; auto. subst k'. assert (Hll := mapM_length _ _ _ F1).
    exists l. split; [lia|]. split; [reflexivity|]. intros j d Hj.
    set (w0 := mkWindow (N := N) [] "" d d d).
    assert (F := mapM_nth _ _ _ j w0 d F1). rewrite Hl in F. specialize (F Hj).
    destruct (window_ok _ _ _ _ _ _ _ _ (Hw j w0 Hj)) as (_ & H & _). apply (H k); auto. now apply key_in.
Qed.

Definition total (c : list (string * nat)) : nat := list_sum (map snd c).
Definition picked (c : list (string * nat)) (nm : string) : nat := list_sum (map snd (filter (fun e => String.eqb (fst e) nm) c)).
Lemma bump_total r c : total (bump r c) = S (total c).
Proof. unfold total. induction c as [|[k n] c IH]; simpl; [reflexivity|]. destruct (String.eqb k r); simpl; lia. Qed.
Lemma bump_keys r c x : In x (map fst (bump r c)) <-> x = r \/ In x (map fst c).
Proof.
  induction c as [|[k n] c IH]; simpl; [intuition|]. destruct (String.eqb_spec k r) as [->|]; simpl; [intuition congruence|]. rewrite IH. intuition.
Qed.
Lemma bump_nodup r c : NoDup (map fst c) -> NoDup (map fst (bump r c)).
Proof.
  induction c as [|[k n] c IH]; simpl; intros H; [repeat constructor; auto|]. inversion H; subst.
  destruct (String.eqb_spec k r) as [->|]; simpl; constructor; auto. rewrite bump_keys. intuition.
Qed.
Lemma bump_picked r c nm : picked (bump r c) nm = picked c nm + (if String.eqb r nm then 1 else 0).
Proof.
  unfold picked. induction c as [|[k n] c IH]; cbn [bump filter map fst snd list_sum].
  - destruct (String.eqb r nm); reflexivity.
  - destruct (String.eqb_spec k r) as [->|Hk]; cbn [filter fst].
    + destruct (String.eqb r nm); cbn [map snd list_sum fold_right]; unfold list_sum; simpl; lia.
    + destruct (String.eqb k nm); cbn [map snd]; unfold list_sum in *; simpl in *; lia.
Qed.
Lemma bumps_total {A} (f : A -> string) ws c : total (fold_left (fun c w => bump (f w) c) ws c) = length ws + total c.
Proof. revert c. induction ws; simpl; intros; auto. rewrite IHws, bump_total. lia. Qed.
Lemma bumps_keys {A} (f : A -> string) ws c x : In x (map fst (fold_left (fun c w => bump (f w) c) ws c)) <-> In x (map f ws) \/ In x (map fst c).
Proof. revert c. induction ws; simpl; intros; [intuition|]. rewrite IHws, bump_keys. intuition. Qed.
Lemma bumps_nodup {A} (f : A -> string) ws c : NoDup (map fst c) -> NoDup (map fst (fold_left (fun c w => bump (f w) c) ws c)).
Proof. revert c. induction ws; simpl; intros; auto using bump_nodup. Qed.
Lemma bumps_picked {A} (f : A -> string) ws c nm : picked (fold_left (fun c w => bump (f w) c) ws c) nm =
  picked c nm + length (filter (fun w => String.eqb (f w) nm) ws).
Proof. revert c. induction ws as [|w ws IH]; simpl; intros; [lia|]. rewrite IH, bump_picked. destruct (String.eqb (f w) nm); simpl; lia. Qed.

(** The recommendation of a window, from its training rows *)
Definition pick_of {N : Num} (L : LinAlg N) fuel model a s (R : mat N) (j : nat) : res (list (Registered N)) :=
  suggest L model fuel (In2 (train_rows a s j R)) 1.

(** The picks: one per window, each the first suggestion for that window's training rows; the dict counts them, under distinct registered
    names, so its values add up to the number of windows. *)
Theorem C96_picks {N : Num} (L : LinAlg N) fuel model R a b s o : rolling_oos L fuel model R a b s = Ok o ->
  exists names : list string, length names = windows (nrows R) a b s /\
    (forall j, j < windows (nrows R) a b s -> exists r,
       suggest L model fuel (In2 (train_rows a s j R)) 1 = Ok [r] /\ nth j names "" = c_name (rg_class r)) /\
    (forall nm, In nm names -> In nm (estimator_names L fuel)) /\
    NoDup (map fst (o_counts o)) /\
    (forall nm n, In (nm, n) (o_counts o) <-> In nm names /\ n = count_occ string_dec names nm) /\
    list_sum (map snd (o_counts o)) = windows (nrows R) a b s.
Proof.
  intros E. destruct (rolling_ok _ _ _ _ _ _ _ _ E) as (Hs & ws & Hl & Hw & _ & _ & _ & _ & Hc).
  exists (map w_rec ws). rewrite map_length, Hc. split; [exact Hl|].
  assert (HN : NoDup (map fst (fold_left (fun c w => bump (w_rec w) c) ws []))) by (apply bumps_nodup; constructor).
  assert (HC : forall nm, length (filter (fun w => String.eqb (w_rec (N := N) w) nm) ws) = count_occ string_dec (map w_rec ws) nm).
  { intros nm. clear. induction ws as [|w ws IH]; simpl; auto. destruct (String.eqb_spec (w_rec w) nm) as [->|Hn]; simpl.
    - destruct (string_dec nm nm); congruence.
    - destruct (string_dec (w_rec w) nm); congruence. }
  assert (HP : forall (c : list (string * nat)), NoDup (map fst c) -> forall nm n, In (nm, n) c -> picked c nm = n).
  { clear. unfold picked, list_sum. induction c as [|[k m] c IH]; simpl; intros HN nm n Hi; [contradiction|]. inversion HN; subst. destruct Hi as [Hi|Hi].
    - injection Hi as -> ->. rewrite String.eqb_refl. simpl.
      assert (Z : filter (fun e => String.eqb (fst e) nm) c = []).
      { clear IH HN H2. induction c as [|[k' m'] c IHc]; simpl in *; auto. destruct (String.eqb_spec k' nm) as [->|]; [exfalso; auto|apply IHc; auto]. }
      rewrite Z. simpl. lia.
    - destruct (String.eqb_spec k nm) as [->|]; simpl; [exfalso; apply H1; apply in_map_iff; now exists (nm, n)|]. now apply IH. }
  split.
  { intros j Hj. set (w0 := mkWindow (N := N) [] "" nnan nnan nnan). destruct (window_ok _ _ _ _ _ _ _ _ (Hw j w0 Hj)) as (_ & _ & (r & H1 & H2 & _) & _).
    exists r. split; [exact H1|]. change "" with (w_rec w0). rewrite map_nth. exact H2. }
  split.
  { intros nm Hnm. apply in_map_iff in Hnm as (w & <- & Hi). apply (In_nth _ _ w) in Hi as (j & Hj & Ej). rewrite Hl in Hj.
    assert (Hj' := Hw j w Hj). rewrite Ej in Hj'. destruct (window_ok _ _ _ _ _ _ _ _ Hj') as (_ & _ & (r & _ & _ & H3) & _). exact H3. }
  split; [exact HN|]. split.
  { intros nm n. split.
    - intros Hi. split.
      + assert (Hk : In nm (map fst (fold_left (fun c w => bump (w_rec w) c) ws []))) by (apply in_map_iff; now exists (nm, n)).
        apply bumps_keys in Hk as [Hk|[]]. exact Hk.
      + rewrite <- (HP _ HN _ _ Hi), bumps_picked, HC. reflexivity.
    - intros [Hk ->]. assert (Hk' : In nm (map fst (fold_left (fun c w => bump (w_rec w) c) ws []))) by (apply bumps_keys; now left).
      apply in_map_iff in Hk' as ([nm' n] & Hf & Hi). cbn in Hf. subst nm'.
      replace (count_occ string_dec (map w_rec ws) nm) with n; [exact Hi|].
      rewrite <- (HP _ HN _ _ Hi), bumps_picked, HC. reflexivity. }
  change (total (fold_left (fun c w => bump (w_rec w) c) ws []) = windows (nrows R) a b s). rewrite bumps_total. unfold total. simpl. lia.
Qed.

Lemma rows_ext {A} (l l' : list A) i j : (forall m, i <= m < j -> same_row l l' m) -> rows_between i j l = rows_between i j l'.
Proof.
  intros H. unfold rows_between.
  assert (G : forall n (u v : list A), (forall m, m < n -> nth_error u m = nth_error v m) -> firstn n u = firstn n v).
  { induction n as [|n IH]; intros u v Huv; [reflexivity|]. assert (H0 := Huv 0 ltac:(lia)). destruct u as [|x u], v as [|y v]; simpl in H0; try discriminate; [reflexivity|].
    injection H0 as ->. simpl. f_equal. apply IH. intros m Hm. apply (Huv (S m)). lia. }
  assert (K : forall n (u : list A) m, nth_error (skipn n u) m = nth_error u (n + m)).
  { induction n as [|n IH]; intros u m; [reflexivity|]. destruct u; simpl; [now destruct m|apply IH]. }
  apply G. intros m Hm. rewrite !K. apply H. lia.
Qed.

(** No look-ahead: what is recommended, window by window, depends on the rows of the training windows only. *)
Theorem C96_picks_see_training_rows_only {N : Num} (L : LinAlg N) fuel model (R R' : mat N) a b s o o' : nrows R = nrows R' ->
  (forall j i, j < windows (nrows R) a b s -> j * s <= i < j * s + a -> same_row R R' i) ->
  rolling_oos L fuel model R a b s = Ok o -> rolling_oos L fuel model R' a b s = Ok o' -> o_counts o = o_counts o'.
Proof.
  intros HT HR E E'. destruct (rolling_ok _ _ _ _ _ _ _ _ E) as (Hs & ws & Hl & Hw & _ & _ & _ & _ & ->).
  destruct (rolling_ok _ _ _ _ _ _ _ _ E') as (_ & ws' & Hl' & Hw' & _ & _ & _ & _ & ->).
  rewrite <- HT in Hl', Hw'. set (w0 := mkWindow (N := N) [] "" nnan nnan nnan).
  assert (EQ : map w_rec ws = map w_rec ws').
  { apply (nth_ext _ _ "" ""); [rewrite !map_length; lia|]. rewrite map_length. intros j Hj. rewrite Hl in Hj.
    change "" with (w_rec w0). rewrite !map_nth.
    destruct (window_ok _ _ _ _ _ _ _ _ (Hw j w0 Hj)) as (_ & _ & (r & H1 & H2 & _) & _).
    destruct (window_ok _ _ _ _ _ _ _ _ (Hw' j w0 Hj)) as (_ & _ & (r' & H1' & H2' & _) & _).
    rewrite H2, H2'. f_equal. rewrite !rows_slice in *. rewrite (rows_ext R R' (j * s) (j * s + a)) in H1 by (intros m Hm; apply (HR j); auto).
    rewrite H1 in H1'. now injection H1' as ->. }
  assert (FM : forall (l : list (window (N := N))) c, fold_left (fun c w => bump (w_rec w) c) l c = fold_left (fun c r => bump r c) (map w_rec l) c).
  { clear. induction l; simpl; auto. }
  now rewrite !FM, EQ.
Qed.

(** Rows that belong to no window (before the end of the series, or in gaps) have no effect at all. *)
Theorem C96_sees_the_windows_only {N : Num} (L : LinAlg N) fuel model (R R' : mat N) a b s : nrows R = nrows R' -> ncols R = ncols R' ->
  (forall j i, j < windows (nrows R) a b s -> j * s <= i < j * s + a + b -> same_row R R' i) ->
  rolling_oos L fuel model R a b s = rolling_oos L fuel model R' a b s.
Proof.
  intros HT HC HR. unfold rolling_oos. destruct (Nat.eqb_spec s 0) as [|Hs]; [reflexivity|]. rewrite <- HT, starts_len by lia.
  rewrite (mapM_ext (window_at L fuel model R a b) (window_at L fuel model R' a b)); [reflexivity|].
  intros t Ht. apply in_map_iff in Ht as (j & <- & Hj). apply in_seq in Hj.
  assert (E1 : slice (j * s) (j * s + a) R = slice (j * s) (j * s + a) R') by (apply rows_ext; intros m Hm; apply (HR j); lia).
  assert (E2 : slice (j * s + a) (j * s + a + b) R = slice (j * s + a) (j * s + a + b) R') by (apply rows_ext; intros m Hm; apply (HR j); lia).
  unfold window_at. rewrite HC, E1, E2. reflexivity.
Qed.

(** No window is skipped: an estimator that fails on one of them, or whose covariance cannot be scored, makes the whole evaluation raise. *)
Theorem C96_any_failure_raises {N : Num} (L : LinAlg N) fuel model (R : mat N) a b s k j : 1 <= s -> In k (signatures L fuel) -> j < windows (nrows R) a b s ->
  (forall cov v, fit_cov k (train_rows a s j R) = Ok cov -> assess L GMVVariance cov (Some (test_rows a b s j R)) None = Ok v -> False) ->
  exists e, rolling_oos L fuel model R a b s = Err e.
Proof.
  intros Hs Hk Hj HF. destruct (rolling_oos L fuel model R a b s) as [o|e] eqn:E; [|eauto]. exfalso.
  destruct (C96_fixed L fuel model R a b s o E) as [Hn H].
  assert (Hi : In (c_name (sg_class k)) (map fst (o_fixed o))) by (rewrite Hn, <- names_eq; apply (in_map est_name), Hk).
  apply in_map_iff in Hi as ([nm v] & Hnm & Hi). cbn in Hnm. subst nm. destruct (H k v Hk Hi) as (vs & _ & _ & Hv). destruct (Hv j v Hj) as (cov & H1 & H2).
  eapply HF; eassumption.
Qed.

(** When the recommender gives the same answer in every window its volatility is that estimator's. *)
Theorem C96_constant_pick {N : Num} (L : LinAlg N) fuel model (R : mat N) a b s o nm : rolling_oos L fuel model R a b s = Ok o ->
  o_counts o = [(nm, windows (nrows R) a b s)] -> In (nm, o_rec o) (o_fixed o).
Proof.
  intros E HC. destruct (rolling_ok _ _ _ _ _ _ _ _ E) as (Hs & ws & Hl & Hw & Hf & -> & _ & _ & Hc).
  assert (HR : forall w, In w ws -> w_rec w = nm).
  { intros w Hi. assert (K : In (w_rec w) (map fst (o_counts o))) by (rewrite Hc; apply bumps_keys; left; now apply in_map).
    rewrite HC in K. destruct K as [K|[]]. auto. }
  set (w0 := mkWindow (N := N) [] "" nnan nnan nnan).
  assert (HW : forall w, In w ws -> exists t, window_at L fuel model R a b t = Ok w).
  { intros w Hi. apply (In_nth _ _ w0) in Hi as (j & Hj & <-). exists (j * s). apply Hw. lia. }
  assert (HM : mapM (fun w => key (w_this w) nm) ws = Ok (map w_pick ws)).
  { apply mapM_all_ok. intros w Hi. destruct (HW w Hi) as (t & Ht). destruct (window_ok _ _ _ _ _ _ _ _ Ht) as (_ & _ & _ & H & _). now rewrite (HR w Hi) in H. }
  assert (Hnm : In nm (map est_name (ests L fuel))).
  { destruct ws as [|w ws'].
    - simpl in Hc. rewrite Hc in HC. discriminate.
    - destruct (HW w (or_introl eq_refl)) as (t & Ht). destruct (window_ok _ _ _ _ _ _ _ _ Ht) as (_ & _ & (r & _ & _ & H) & _). now rewrite (HR w (or_introl eq_refl)) in H. }
  apply in_map_iff in Hnm as (k & Hk & Hi). subst nm. destruct (mapM_in' _ _ _ Hf k Hi) as (e & He & Ek). rewrite HM in Ek. injection Ek as <-. exact He.
Qed.

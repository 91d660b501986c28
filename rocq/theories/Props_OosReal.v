(** * C96 over the extended reals: the oracle bounds everything *)
From Coq Require Import Reals ZArith Bool String List Lia Lra Arith.
From Verif Require Import Num Numpy PyVal LinalgModel StateModel BaseModel Estimators RegistryModel ParamsModel AssessModel RecommendModel
  Spec ListLemmas OosModel OosSpec Props_Params Props_Recommend Props_Oos.
Import ListNotations.
Local Open Scope string_scope.
Local Open Scope R_scope.

Definition nn (x : xreal) : Prop := xle (Fin 0) x.
Lemma xle_refl x : x <> NaN -> xle x x. Proof. destruct x; simpl; intros; auto; try lra. Qed.
Lemma xle_trans x y z : xle x y -> xle y z -> xle x z.
Proof. destruct x, y, z; simpl; intros; auto; try contradiction; lra. Qed.
Lemma xltb_true x y : xltb x y = true -> xle x y.
Proof. destruct x, y; simpl; try discriminate; auto. unfold Rltb. destruct Rlt_dec; [lra|discriminate]. Qed.
Lemma xltb_false x y : x <> NaN -> y <> NaN -> xltb x y = false -> xle y x.
Proof. destruct x, y; simpl; intros; try discriminate; auto; try congruence. revert H1. unfold Rltb. destruct Rlt_dec; [discriminate|lra]. Qed.
Lemma sq_nn x : x <> NaN -> nn (@nsq NumX x).
Proof.
  unfold nn. destruct x; cbn; intros; auto; try nra; try congruence; unfold xinf; cbn; auto.
Qed.
Lemma sq_nan : @nsq NumX NaN = NaN. Proof. reflexivity. Qed.
Lemma add_nn x y : nn x -> nn y -> nn (xadd x y).
Proof. unfold nn. destruct x, y; simpl; intros; auto; try contradiction; lra. Qed.
Lemma add_mono x x' y y' : nn x -> nn y -> xle x x' -> xle y y' -> xle (xadd x y) (xadd x' y').
Proof. unfold nn. destruct x, x', y, y'; simpl; intros; auto; try contradiction; lra. Qed.
Lemma fold_nan l : fold_left xadd l NaN = NaN.
Proof. induction l as [|x l IH]; simpl; auto. Qed.
Lemma fold_nn l a : nn a -> Forall nn l -> nn (fold_left xadd l a).
Proof. revert a. induction l as [|x l IH]; simpl; intros a Ha Hl; auto. inversion Hl; subst. apply IH; auto using add_nn. Qed.
Lemma fold_mono l l' a a' : nn a -> xle a a' -> Forall nn l -> Forall2 xle l l' -> xle (fold_left xadd l a) (fold_left xadd l' a').
Proof.
  intros Ha Haa Hl H. revert a a' Ha Haa Hl. induction H as [|x x' l l' Hx H IH]; simpl; intros a a' Ha Haa Hl; auto. inversion Hl; subst.
  apply IH; auto using add_nn, add_mono.
Qed.
Lemma fold_notnan l a : nn a -> Forall (fun x => x = NaN \/ nn x) l -> fold_left xadd l a <> NaN -> Forall nn l.
Proof.
  revert a. induction l as [|x l IH]; simpl; intros a Ha Hl H; constructor; inversion Hl; subst.
  - destruct H2 as [->|H2]; auto. exfalso. apply H. destruct a; apply fold_nan.
  - destruct H2 as [->|H2]; [exfalso; apply H; destruct a; apply fold_nan|]. apply (IH (xadd a x)); auto using add_nn.
Qed.
Lemma nofn_pos n : (1 <= n)%nat -> @nofn NumX n = Fin (INR n) /\ 0 < INR n.
Proof. intros. split; [unfold nofn; cbn; now rewrite <- INR_IZR_INZ|apply lt_0_INR; lia]. Qed.
Lemma div_mono x y n : 0 < n -> nn x -> xle x y -> nn (xdiv x (Fin n)) /\ xle (xdiv x (Fin n)) (xdiv y (Fin n)).
Proof.
  intros Hn. unfold nn. assert (E : Reqb n 0 = false) by (unfold Reqb; destruct Req_EM_T; [lra|reflexivity]).
  assert (P : Rltb 0 n = true) by (unfold Rltb; destruct Rlt_dec; [reflexivity|lra]).
  assert (Hi : 0 < / n) by now apply Rinv_0_lt_compat.
  destruct x, y; cbn; intros; try contradiction; rewrite ?E, ?P; unfold xinf; cbn; rewrite ?E, ?P; cbn; auto.
  - unfold Rdiv. nra.
  - unfold Rdiv. split; [nra|auto].
Qed.
Lemma ann_mono x y : nn x -> xle x y -> nn (xsqrt (xmul (Fin 252) x)) /\ xle (xsqrt (xmul (Fin 252) x)) (xsqrt (xmul (Fin 252) y)).
Proof.
  unfold nn. assert (P : Rltb 0 252 = true) by (unfold Rltb; destruct Rlt_dec; [reflexivity|lra]).
  destruct x, y; cbn; intros; try contradiction; rewrite ?P; unfold xinf; cbn; auto;
    repeat (match goal with |- context [Rltb ?u 0] => replace (Rltb u 0) with false by (unfold Rltb; destruct Rlt_dec; [lra|reflexivity]) end); cbn; auto using sqrt_pos.
  split; [apply sqrt_pos|]. apply sqrt_le_1; lra.
Qed.

Lemma annvol_notnan (l : list NumX) : Forall (fun x => x = NaN \/ nn x) l -> annvol l <> (NaN : NumX) -> l <> [] /\ Forall nn l.
Proof.
  intros Hl H. unfold annvol, vmean in H. destruct l as [|x l].
  - exfalso. apply H. cbn. unfold Reqb. destruct Req_EM_T; [|lra]. cbn. unfold Rltb. destruct Rlt_dec; [lra|]. reflexivity.
  - split; [discriminate|]. apply (fold_notnan _ (Fin 0)); [unfold nn; simpl; lra|exact Hl|]. intros E. apply H.
    change (vsum (N := NumX) (x :: l)) with (fold_left xadd (x :: l) (Fin 0)). rewrite E. reflexivity.
Qed.
Lemma annvol_mono (l l' : list NumX) : l <> [] -> Forall nn l -> Forall2 xle l l' -> nn (annvol (N := NumX) l) /\ xle (annvol (N := NumX) l) (annvol (N := NumX) l').
Proof.
  intros Hne Hl H. unfold annvol, vmean.
  assert (HL : length l' = length l) by (clear -H; induction H as [|? ? ? ? ? ? IH]; simpl; [reflexivity|exact (f_equal S IH)]). rewrite HL.
  destruct (nofn_pos (length l)) as [En Hn]; [destruct l; [contradiction|simpl; lia]|]. rewrite En.
  assert (Z : nn (Fin 0)) by (unfold nn; simpl; lra).
  assert (H0 : nn (vsum (N := NumX) l)) by (apply fold_nn; auto).
  assert (H1 : xle (vsum (N := NumX) l) (vsum (N := NumX) l')) by (apply fold_mono; auto).
  destruct (div_mono _ _ _ Hn H0 H1) as [H2 H3]. exact (ann_mono _ _ H2 H3).
Qed.

Lemma min_le (l : list NumX) m : Forall nn l -> py_minimum (N := NumX) l = Ok m -> nn m /\ forall x, In x l -> xle m x.
Proof.
  unfold py_minimum. destruct l as [|x0 l]; [discriminate|]. intros Hl E. injection E as <-. inversion Hl; subst.
  assert (G : forall l a, nn a -> Forall nn l -> nn (fold_left (py_min (N := NumX)) l a) /\ xle (fold_left (py_min (N := NumX)) l a) a /\ forall x, In x l -> xle (fold_left (py_min (N := NumX)) l a) x).
  { clear. assert (NN : forall a, nn a -> a <> NaN) by (intros a H ->; exact H).
    induction l as [|y l IH]; simpl; intros a Ha Hl; [split; [auto|]; split; [apply xle_refl, NN, Ha|contradiction]|]. inversion Hl; subst.
    assert (Hm : nn (py_min (N := NumX) a y)) by (unfold py_min; destruct nltb; auto).
    assert (Hma : xle (py_min (N := NumX) a y) a) by (unfold py_min; destruct (@nltb NumX y a) eqn:E; [now apply xltb_true|apply xle_refl; auto]).
    assert (Hmy : xle (py_min (N := NumX) a y) y) by (unfold py_min; destruct (@nltb NumX y a) eqn:E; [apply xle_refl; auto|apply xltb_false; auto]).
    destruct (IH _ Hm H2) as (I1 & I2 & I3). split; [exact I1|]. split; [eapply xle_trans; eassumption|].
    intros x [<-|Hx]; [eapply xle_trans; eassumption|auto]. }
  destruct (G l x0 H1 H2) as (I1 & I2 & I3). split; [exact I1|]. intros x [<-|Hx]; auto.
Qed.

Lemma mean_sq_nn (r : list NumX) : vmean (N := NumX) (map nsq r) = NaN \/ nn (vmean (N := NumX) (map nsq r)).
Proof.
  destruct r as [|x r]; [left; cbn; unfold Reqb; destruct Req_EM_T; [|lra]; unfold xinf, Rltb; cbn; destruct Rlt_dec; [lra|reflexivity]|].
  set (l := map (@nsq NumX) (x :: r)).
  assert (Hl : Forall (fun x => x = NaN \/ nn x) l).
  { apply Forall_forall. intros y Hy. apply in_map_iff in Hy as (z & <- & _). destruct z; try (left; reflexivity); right; apply sq_nn; discriminate. }
  unfold vmean. replace (length l) with (S (length r)) by (unfold l; simpl; now rewrite map_length).
  destruct (nofn_pos (S (length r))) as [-> Hn]; [lia|].
  assert (D : vsum (N := NumX) l = NaN \/ nn (vsum (N := NumX) l)).
  { unfold vsum. change (@nadd NumX) with xadd. assert (Z : nn (@n0 NumX)) by (unfold nn; simpl; lra). generalize dependent (@n0 NumX). clearbody l. clear -Hl.
    induction l as [|y l IH]; simpl; intros a Ha; auto. inversion Hl; subst. destruct H1 as [->|H1]; [left; destruct a; apply fold_nan|]. apply IH; auto using add_nn. }
  destruct D as [->|D]; [left; reflexivity|right]. assert (NN : vsum (N := NumX) l <> NaN) by (intros E; rewrite E in D; exact D).
  now destruct (div_mono _ _ _ Hn D (xle_refl _ NN)).
Qed.

Lemma this_nn L fuel model R a b t w : window_at (N := NumX) L fuel model R a b t = Ok w -> Forall (fun x => x = NaN \/ nn x) (map snd (w_this w)).
Proof.
  unfold window_at. intros E. apply bind_ok in E as (this & E1 & E). apply bind_ok in E as (top & _ & E). apply bind_ok in E as (rec & _ & E).
  apply bind_ok in E as (pick & _ & E). apply bind_ok in E as (orc & _ & E). apply bind_ok in E as (eq & _ & E). injection E as <-. cbn [w_this].
  apply Forall_forall. intros x Hx. apply in_map_iff in Hx as ([nm v] & <- & Hx). destruct (mapM_in _ _ _ E1 _ Hx) as (k & _ & Ek).
  apply bind_ok in Ek as (cov & _ & Ek). apply bind_ok in Ek as (wt & _ & Ek). apply bind_ok in Ek as (v' & F & Ek). injection Ek as _ <-.
  unfold realised in F. apply bind_ok in F as (r & _ & F). injection F as <-. apply mean_sq_nn.
Qed.

(** The oracle, which picks the best estimator of each window afterwards, is at most the volatility of any fixed estimator and of the
    recommender, as soon as no fixed estimator's volatility is NaN (there is then at least one window). *)
Theorem C96_oracle L fuel model (R : mat NumX) a b s o : rolling_oos L fuel model R a b s = Ok o ->
  (forall nm v, In (nm, v) (o_fixed o) -> v <> NaN) ->
  (1 <= windows (nrows R) a b s)%nat /\ xle (Fin 0) (o_oracle o) /\
  (forall nm v, In (nm, v) (o_fixed o) -> xle (o_oracle o) v) /\ xle (o_oracle o) (o_rec o).
Proof.
  intros E HN. destruct (rolling_ok _ _ _ _ _ _ _ _ E) as (Hs & ws & Hl & Hw & Hf & -> & -> & _).
  set (w0 := mkWindow (N := NumX) [] "" NaN NaN NaN).
  assert (HW : forall w, In w ws -> exists t, window_at L fuel model R a b t = Ok w).
  { intros w Hi. apply (In_nth _ _ w0) in Hi as (j & Hj & <-). exists (j * s)%nat. apply Hw. lia. }
  assert (HE : forall k, In k (ests L fuel) -> exists l, mapM (fun w => key (w_this w) (est_name k)) ws = Ok l /\ In (est_name k, annvol l) (o_fixed o)).
  { intros k Hk. destruct (mapM_in' _ _ _ Hf k Hk) as (e & He & Ek). apply bind_ok in Ek as (l & F & Ek). injection Ek as <-. eauto. }
  assert (HA : ws <> [] /\ forall w, In w ws -> Forall nn (map snd (w_this w))).
  { assert (G : forall k, In k (ests L fuel) -> ws <> [] /\ forall w v, In w ws -> key (w_this w) (est_name k) = Ok v -> nn v).
    { intros k Hk. destruct (HE k Hk) as (l & Fl & Hi).
      assert (Hl' : Forall (fun x => x = NaN \/ nn x) l).
      { apply Forall_forall. intros v Hv. destruct (mapM_in _ _ _ Fl v Hv) as (w & Hwi & Kw). destruct (HW w Hwi) as (t & Ht).
        assert (T := this_nn _ _ _ _ _ _ _ _ Ht). rewrite Forall_forall in T. apply T. apply key_in in Kw. apply in_map_iff. now exists (est_name k, v). }
      destruct (annvol_notnan l Hl' (HN _ _ Hi)) as [Hne Hnn].
      split; [intros ->; apply Hne; now injection Fl as <-|]. intros w v Hwi Kw. destruct (mapM_in' _ _ _ Fl w Hwi) as (v' & Hv' & Kv).
      rewrite Kw in Kv. injection Kv as ->. rewrite Forall_forall in Hnn. auto. }
    split; [apply (G (hd (nth 0 (ests L fuel) (mkSigned Empirical [] (fun _ => None) (fun _ => []))) (ests L fuel))); now left|].
    intros w Hwi. destruct (HW w Hwi) as (t & Ht). destruct (window_ok _ _ _ _ _ _ _ _ Ht) as (Hn & _). apply Forall_forall. intros v Hv.
    apply in_map_iff in Hv as ([nm v'] & <- & Hv). assert (Hnm : In nm (map est_name (ests L fuel))) by (rewrite <- Hn; apply in_map_iff; now exists (nm, v')).
    apply in_map_iff in Hnm as (k & <- & Hk). destruct (G k Hk) as [_ G']. apply (G' w v' Hwi).
    apply key_nodup; auto. rewrite Hn. apply names_nodup. }
  destruct HA as [Hne HA].
  assert (HO : forall w, In w ws -> nn (w_oracle w) /\ forall v, In v (map snd (w_this w)) -> xle (w_oracle w) v).
  { intros w Hwi. destruct (HW w Hwi) as (t & Ht). destruct (window_ok _ _ _ _ _ _ _ _ Ht) as (_ & _ & _ & _ & Hm & _). now apply min_le; auto. }
  assert (HOn : Forall nn (map w_oracle ws)).
  { apply Forall_forall. intros v Hv. apply in_map_iff in Hv as (w & <- & Hwi). now apply HO. }
  assert (Hne' : map (w_oracle (N := NumX)) ws <> []) by (intros E0; apply map_eq_nil in E0; contradiction).
  assert (HP : Forall2 xle (map w_oracle ws) (map w_pick ws)).
  { assert (GP : forall w, In w ws -> xle (w_oracle w) (w_pick w)).
    { intros w Hwi. destruct (HW w Hwi) as (t & Ht). destruct (window_ok _ _ _ _ _ _ _ _ Ht) as (_ & _ & _ & Hk & _). apply HO; auto.
      apply key_in in Hk. apply in_map_iff. now exists (w_rec w, w_pick w). }
    clear -GP. induction ws; simpl; constructor; auto with *. }
  split; [destruct ws; [contradiction|simpl in Hl; lia]|].
  destruct (annvol_mono _ _ Hne' HOn HP) as [A1 A2]. split; [exact A1|]. split; [|exact A2].
  intros nm v Hi. destruct (mapM_in _ _ _ Hf _ Hi) as (k & Hk & Ek). apply bind_ok in Ek as (l & F & Ek). injection Ek as _ <-.
  refine (proj2 (annvol_mono _ l Hne' HOn _)).
  assert (GL : forall w v, In w ws -> key (w_this w) (est_name k) = Ok v -> xle (w_oracle w) v).
  { intros w v Hwi Kw. apply HO; auto. apply key_in in Kw. apply in_map_iff. now exists (est_name k, v). }
  clear -F GL. revert l F GL. induction ws as [|w ws IH]; simpl; intros l F GL.
  - injection F as <-. constructor.
  - apply bind_ok in F as (v & F1 & F). apply bind_ok in F as (l' & F2 & F). injection F as <-. constructor; [apply GL; auto|apply IH; auto].
Qed.

(** Fewer rows than one window needs: nothing is computed, every volatility is NaN and no pick is counted. *)
Theorem C96_too_short L fuel model (R : mat NumX) a b s : (1 <= s)%nat -> (nrows R < a + b)%nat ->
  exists o, rolling_oos L fuel model R a b s = Ok o /\ map fst (o_fixed o) = estimator_names L fuel /\
    (forall nm v, In (nm, v) (o_fixed o) -> v = NaN) /\ o_rec o = NaN /\ o_oracle o = NaN /\ o_equal o = NaN /\ o_counts o = [].
Proof.
  intros Hs HT. assert (HW : windows (nrows R) a b s = 0%nat) by (unfold windows; now destruct (Nat.ltb_spec (nrows R) (a + b)); [|lia]).
  assert (Z : annvol (N := NumX) [] = NaN).
  { cbn. unfold Reqb. destruct Req_EM_T; [|lra]. unfold xinf, Rltb. cbn. destruct Rlt_dec; [lra|]. reflexivity. }
  unfold rolling_oos. destruct (Nat.eqb_spec s 0) as [->|_]; [lia|]. rewrite starts_len, HW by lia. cbn [seq map mapM bind].
  rewrite (mapM_all_ok _ (fun k => (est_name k, annvol (N := NumX) []))) by reflexivity. cbn [bind].
  eexists. split; [reflexivity|]. cbn [o_fixed o_rec o_oracle o_equal o_counts fold_left]. rewrite Z.
  split; [rewrite map_map; reflexivity|]. split; [|auto]. intros nm v Hi. apply in_map_iff in Hi as (k & E & _). now injection E as _ <-.
Qed.

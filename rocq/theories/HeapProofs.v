(** * The heap model agrees with the value model on polite programs *)
From Coq Require Import Bool List Lia Arith.
From Verif Require Import Num Numpy PyVal LinalgModel BaseModel HeapModel HeapSpec ListLemmas.
Import ListNotations.

Lemma nth_app {A} (l l' : list A) i x : nth_error l i = Some x -> nth_error (l ++ l') i = Some x.
Proof. intros H. rewrite nth_error_app1; auto. apply nth_error_Some. congruence. Qed.
Lemma nth_snoc {A} (l : list A) x : nth_error (l ++ [x]) (length l) = Some x.
Proof. rewrite nth_error_app2, Nat.sub_diag by lia. reflexivity. Qed.
Lemma upd_length {A} (l : list A) i x : length (upd l i x) = length l.
Proof. revert i. induction l as [|y l IH]; intros [|i]; cbn; auto. Qed.
Lemma upd_same {A} (l : list A) i x : i < length l -> nth_error (upd l i x) i = Some x.
Proof. revert i. induction l as [|y l IH]; intros [|i] H; cbn in *; try lia; auto. apply IH. lia. Qed.
Lemma upd_other {A} (l : list A) i j x : i <> j -> nth_error (upd l i x) j = nth_error l j.
Proof. revert i j. induction l as [|y l IH]; intros [|i] [|j] H; cbn; auto; try congruence. Qed.
Lemma nth_upd_true l i h : nth h (upd l i true) true = false -> nth h l true = false /\ h <> i \/ length l <= i /\ nth h l true = false.
Proof.
  revert i h. induction l as [|b l IH]; intros [|i] [|h] H; cbn in *; try discriminate; auto; try (left; split; [auto|lia]).
  destruct (IH i h H) as [[? ?]|[? ?]]; [left; split; auto; lia|right; split; auto; lia].
Qed.

Section Sim.
  Context {N : Num} (L : LinAlg N) (C : EstClass N) (put : option (c_St C -> vec N -> c_St C)).
  Notation hinst := (hinst C).
  Notation heap := (@heap N).
  (** [put s v] only replaces the mean *)
  Definition put_ok : Prop := forall f p s m, put = Some f -> c_mean C p s = Ok m -> f s m = s.
  Context (HP : put_ok).

  Definition valid (hp : heap) (r : @rowref N) : Prop := match r with View a _ => a < length hp | Own _ => True end.
  Definition mean_ok (hp : heap) (o : hinst) : Prop :=
    match h_state C o, put with
    | Some s, Some _ => match c_mean C (h_params C o) s with
                        | Ok m => exists a, h_mean C o = Some a /\ nth_error hp a = Some (A1 m)
                        | Err _ => h_mean C o = None end
    | _, _ => h_mean C o = None
    end.
  Definition Est (hp : heap) (o : hinst) (v : inst C) : Prop :=
    h_params C o = i_params v /\ h_state C o = i_state v /\ h_nfeat C o = i_nfeat v /\ mean_ok hp o /\
    match h_prev C o, i_prev v with None, None => True | Some r, Some x => deref hp r = x /\ valid hp r | _, _ => False end.
  Lemma est_contents hp o v : Est hp o v -> contents C put hp o = v.
  Proof.
    intros (E1 & E2 & E3 & E4 & E5). destruct v as [vp vs vn vv], o as [op os om on ov]. cbn in *. subst op os on.
    unfold contents. cbn. f_equal.
    - unfold mean_ok in E4. cbn in E4. destruct vs as [s|]; [|reflexivity]. destruct put as [f|] eqn:EP; [|reflexivity].
      destruct (c_mean C vp s) as [m|] eqn:EM.
      + destruct E4 as (a & -> & ->). f_equal. now apply (HP f vp s m).
      + now subst om.
    - destruct ov, vv; try contradiction; [now destruct E5 as [-> _]|reflexivity].
  Qed.
  Lemma deref_app hp ext r : valid hp r -> deref (hp ++ ext) r = deref hp r.
  Proof. destruct r as [a i|]; [|reflexivity]. intros H. cbn in *. now rewrite nth_error_app1. Qed.
  Lemma valid_app hp ext r : valid hp r -> valid (hp ++ ext) r.
  Proof. destruct r; cbn; auto. rewrite app_length. lia. Qed.
  Lemma est_app hp ext o v : Est hp o v -> Est (hp ++ ext) o v.
  Proof.
    intros (E1 & E2 & E3 & E4 & E5). split; [auto|]. split; [auto|]. split; [auto|]. split.
    - unfold mean_ok in *. destruct (h_state C o), put; auto. destruct (c_mean _ _ _) as [m|]; auto. destruct E4 as (a & -> & E). exists a. split; auto. now apply nth_app.
    - destruct (h_prev C o), (i_prev v); auto. destruct E5 as [<- HV]. split; [now apply deref_app|now apply valid_app].
  Qed.
  (** what an operation on the estimator may do: extend the heap; the mean is the old one or a new cell; [_prev_x] is the old one or one of [rs] *)
  Definition grows (hp hp' : heap) (o o' : hinst) (rs : list (@rowref N)) : Prop :=
    (exists ext, hp' = hp ++ ext) /\
    (h_mean C o' = h_mean C o \/ h_mean C o' = None \/ exists a, h_mean C o' = Some a /\ length hp <= a) /\
    (h_prev C o' = h_prev C o \/ h_prev C o' = None \/ (c_diff C (h_params C o) = true /\ exists r, In r rs /\ h_prev C o' = Some r)) /\
    h_params C o' = h_params C o.
  Lemma grows_refl hp o rs : grows hp hp o o rs.
  Proof. split; [exists []; now rewrite app_nil_r|]. auto. Qed.
  Lemma grows_trans hp1 hp2 hp3 o1 o2 o3 rs1 rs2 : grows hp1 hp2 o1 o2 rs1 -> grows hp2 hp3 o2 o3 rs2 -> grows hp1 hp3 o1 o3 (rs1 ++ rs2).
  Proof.
    intros ((e1 & ->) & M1 & P1 & Q1) ((e2 & ->) & M2 & P2 & Q2). split; [exists (e1 ++ e2); now rewrite app_assoc|]. split; [|split; [|congruence]].
    - destruct M2 as [->|[->|(a & -> & H)]]; [exact M1|auto|]. right. right. exists a. split; auto. rewrite app_length in H. lia.
    - destruct P2 as [->|[->|(D & r & Hr & ->)]]; [|auto|].
      + destruct P1 as [->|[->|(D & r & Hr & ->)]]; auto. right. right. split; auto. exists r. split; auto. apply in_or_app. auto.
      + right. right. rewrite Q1 in D. split; auto. exists r. split; auto. apply in_or_app. auto.
  Qed.

  Lemma store_ok hp p s nf (prev : option rowref) (vprev : option (vec N)) :
    match prev, vprev with None, None => True | Some r, Some x => deref hp r = x /\ valid hp r | _, _ => False end ->
    let '(hp', o') := store C put hp p s nf prev in
    Est hp' o' (mkInst p s nf vprev) /\ (exists ext, hp' = hp ++ ext) /\ (h_mean C o' = None \/ exists a, h_mean C o' = Some a /\ length hp <= a) /\
    h_prev C o' = prev /\ h_params C o' = p.
  Proof.
    intros H. unfold store.
    assert (G : forall (hp' : heap) om, (exists ext, hp' = hp ++ ext) -> mean_ok hp' (mkH C p s om nf prev) -> Est hp' (mkH C p s om nf prev) (mkInst p s nf vprev)).
    { intros hp' om (ext & ->) HM. split; [reflexivity|]. split; [reflexivity|]. split; [reflexivity|]. split; [exact HM|]. cbn.
      destruct prev, vprev; auto. destruct H as [<- HV]. split; [now apply deref_app|now apply valid_app]. }
    assert (E0 : exists ext, hp = hp ++ ext) by (exists []; now rewrite app_nil_r).
    destruct s as [st|], put as [f|] eqn:EP.
    - destruct (c_mean C p st) as [m|] eqn:EM.
      + split; [|split; [eauto|split; [right; exists (length hp); auto|auto]]]. apply G; [eauto|]. unfold mean_ok. cbn. rewrite EP, EM. exists (length hp). split; auto. apply nth_snoc.
      + split; [|split; [auto|split; [now left|auto]]]. apply G; [auto|]. unfold mean_ok. cbn. now rewrite EP, EM.
    - split; [|split; [auto|split; [now left|auto]]]. apply G; [auto|]. unfold mean_ok. cbn. now rewrite EP.
    - split; [|split; [auto|split; [now left|auto]]]. apply G; [auto|]. unfold mean_ok. cbn. now rewrite ?EP.
    - split; [|split; [auto|split; [now left|auto]]]. apply G; [auto|]. unfold mean_ok. cbn. now rewrite ?EP.
  Qed.

  Lemma absorb_prev (v v' : inst C) x r : absorb v x = (v', r) -> i_prev v' = i_prev v /\ i_params v' = i_params v /\ (forall s e, i_state v = Some s -> r = Err e -> v' = v).
  Proof.
    unfold absorb. destruct (i_state v) as [s|] eqn:ES.
    - destruct (c_update _ _ _ _); intros [= <- <-]; cbn; split; auto; split; auto; intros; congruence.
    - destruct (c_init _ _ _); [|intros [= <- <-]; cbn; split; auto; split; auto; intros; congruence].
      destruct (c_update _ _ _ _); intros [= <- <-]; cbn; split; auto; split; auto; intros; congruence.
  Qed.
  Lemma h_absorb_ok hp o v x : Est hp o v ->
    let '(hp', o', r) := h_absorb C put hp o x in
    let '(v', r') := absorb v x in r = r' /\ Est hp' o' v' /\ (exists ext, hp' = hp ++ ext) /\
      (h_mean C o' = h_mean C o \/ h_mean C o' = None \/ exists a, h_mean C o' = Some a /\ length hp <= a) /\ h_prev C o' = h_prev C o /\ h_params C o' = h_params C o.
  Proof.
    intros HE. unfold h_absorb. rewrite (est_contents _ _ _ HE). destruct (absorb v x) as [v' r] eqn:EA. destruct (absorb_prev _ _ _ _ EA) as (P1 & P2 & P3).
    assert (E0 : exists ext, hp = hp ++ ext) by (exists []; now rewrite app_nil_r).
    assert (K : let '(hp', o', r0) := (store C put hp (h_params C o) (i_state v') (i_nfeat v') (h_prev C o), r) in
       r0 = r /\ Est hp' o' v' /\ (exists ext, hp' = hp ++ ext) /\
      (h_mean C o' = h_mean C o \/ h_mean C o' = None \/ exists a, h_mean C o' = Some a /\ length hp <= a) /\ h_prev C o' = h_prev C o /\ h_params C o' = h_params C o).
    { destruct HE as (E1 & E2 & E3 & E4 & E5). pose proof (store_ok hp (h_params C o) (i_state v') (i_nfeat v') (h_prev C o) (i_prev v) E5) as S.
      destruct (store C put hp (h_params C o) (i_state v') (i_nfeat v') (h_prev C o)) as [hp' o']. destruct S as (S1 & S2 & S3 & S4 & S5).
      split; [reflexivity|]. split; [|auto 6]. rewrite <- P1 in S1. rewrite E1, <- P2 in S1. destruct v'; exact S1. }
    destruct HE as (E1 & E2 & E3 & E4 & E5). destruct (h_state C o) as [s|] eqn:EH; [|exact K]. destruct r as [u|e]; [exact K|].
    rewrite (P3 s e) by auto. split; [reflexivity|]. split; [|auto]. split; [auto|]. split; [congruence|]. auto.
  Qed.
  Lemma set_prev_est hp o v r : Est hp o v -> valid hp r -> Est hp (set_prev C o r) (mkInst (i_params v) (i_state v) (i_nfeat v) (Some (deref hp r))).
  Proof. intros (E1 & E2 & E3 & E4 & E5) HV. split; [auto|]. split; [auto|]. split; [auto|]. split; [exact E4|]. cbn. auto. Qed.
  Lemma h_fit_row_ok hp o v r : Est hp o v -> valid hp r ->
    let '(hp', o', e) := h_fit_row C put hp o r in
    let '(v', e') := fit_row v (deref hp r) in e = e' /\ Est hp' o' v' /\ grows hp hp' o o' [r].
  Proof.
    intros HE HV. unfold h_fit_row, fit_row. pose proof HE as (E1 & E2 & E3 & E4 & E5). rewrite <- E1. destruct (c_diff C (h_params C o)) eqn:ED.
    - destruct (h_prev C o) as [pr|] eqn:EP, (i_prev v) as [px|] eqn:EV; try contradiction.
      + destruct E5 as [<- HVp]. destruct (vsub _ _) as [d|e].
        * pose proof (h_absorb_ok hp (set_prev C o r) _ d (set_prev_est hp o v r HE HV)) as K. rewrite <- E1 in K.
          destruct (h_absorb C put hp (set_prev C o r) d) as [[hp' o'] e]. destruct (absorb _ d) as [v' e']. destruct K as (-> & K1 & K2 & K3 & K4 & K5). split; [auto|]. split; [auto|].
          split; [auto|]. split; [exact K3|]. split; [|exact K5]. right. right. split; [auto|]. exists r. split; [now left|exact K4].
        * split; [reflexivity|]. split; [exact HE|apply grows_refl].
      + split; [reflexivity|]. split; [rewrite E1; now apply set_prev_est|]. split; [exists []; now rewrite app_nil_r|]. split; [now left|]. split; [|reflexivity]. right. right. split; [auto|]. exists r. split; [now left|reflexivity].
    - pose proof (h_absorb_ok hp o v (deref hp r) HE) as K. destruct (h_absorb C put hp o (deref hp r)) as [[hp' o'] e]. destruct (absorb v _) as [v' e']. destruct K as (-> & K1 & K2 & K3 & K4 & K5).
      split; [auto|]. split; [auto|]. split; [auto|]. split; [exact K3|]. split; [now left|exact K5].
  Qed.
  Lemma h_fit_rows_ok rs : forall hp o v, Est hp o v -> Forall (valid hp) rs ->
    let '(hp', o', e) := h_fit_rows C put hp o rs in
    let '(v', e') := fit_rows v (map (deref hp) rs) in e = e' /\ Est hp' o' v' /\ grows hp hp' o o' rs.
  Proof.
    induction rs as [|r rs IH]; intros hp o v HE HV; cbn [h_fit_rows map fit_rows].
    - split; [reflexivity|]. split; [exact HE|apply grows_refl].
    - inversion HV as [|? ? HV1 HV2]; subst. pose proof (h_fit_row_ok hp o v r HE HV1) as K. destruct (h_fit_row C put hp o r) as [[hp' o'] e]. destruct (fit_row v (deref hp r)) as [v' e'].
      destruct K as (<- & K1 & K2). destruct e as [u|e].
      + destruct K2 as ((ext & ->) & K2'). assert (HV' : Forall (valid (hp ++ ext)) rs) by (eapply Forall_impl; [|exact HV2]; intros; now apply valid_app).
        assert (ED : map (deref (hp ++ ext)) rs = map (deref hp) rs) by (apply map_ext_in; intros q Hq; apply deref_app; rewrite Forall_forall in HV2; auto).
        specialize (IH (hp ++ ext) o' v' K1 HV'). rewrite ED in IH. destruct (h_fit_rows C put (hp ++ ext) o' rs) as [[hp2 o2] e2]. destruct (fit_rows v' (map (deref hp) rs)) as [v2 e2'].
        destruct IH as (I1 & I2 & I3). split; [auto|]. split; [auto|]. change (r :: rs) with ([r] ++ rs). eapply grows_trans; [|exact I3]. split; [eauto|exact K2'].
      + split; [reflexivity|]. split; [exact K1|]. destruct K2 as (K2 & K3 & K4 & K5). split; [auto|]. split; [auto|]. split; [|auto].
        destruct K4 as [K4|[K4|(D & q & [<-|[]] & K4)]]; auto. right. right. split; auto. exists r. split; [now left|auto].
  Qed.
  (** the argument of a call: its value, and the rows it is viewed as *)
  Definition arg_value (hp : heap) (X : @arg N) : input N :=
    match X with AList X => X | AArr a => match nth_error hp a with Some c => value_of c | None => InN 3 end end.
  Definition views_of (X : @arg N) (rs : list (@rowref N)) : Prop := forall a i, In (View a i) rs -> X = AArr a.
  Lemma as_rows_ok hp X : (forall a, X = AArr a -> a < length hp) ->
    match h_as_rows hp X with
    | Ok rs => as_rows (arg_value hp X) = Ok (map (deref hp) rs) /\ Forall (valid hp) rs /\ views_of X rs
    | Err e => as_rows (arg_value hp X) = Err e
    end.
  Proof.
    intros HA. unfold h_as_rows, arg_value. destruct X as [X|a].
    - destruct (as_rows X) as [rows|e]; cbn [bind]; [|reflexivity]. split; [|split].
      + f_equal. rewrite map_map. cbn. now rewrite map_id.
      + apply Forall_forall. intros r Hr. apply in_map_iff in Hr. destruct Hr as (v & <- & _). exact I.
      + intros a i Hr. apply in_map_iff in Hr. destruct Hr as (v & K & _). discriminate.
    - specialize (HA a eq_refl). destruct (nth_error hp a) as [[v|m|t]|] eqn:EN; cbn [value_of as_rows].
      + split; [cbn; now rewrite EN|]. split; [constructor; [exact HA|constructor]|]. intros b i [K|[]]. now injection K as -> _.
      + split; [|split].
        * f_equal. rewrite map_map. cbn. rewrite EN. change (m = tab (length m) (fun i => nth i m [])). apply tab_nth.
        * apply Forall_forall. intros r Hr. apply in_map_iff in Hr. destruct Hr as (i & <- & _). exact HA.
        * intros b i Hr. apply in_map_iff in Hr. destruct Hr as (j & K & _). now injection K as -> _.
      + reflexivity.
      + reflexivity.
  Qed.
  Lemma grows_sub hp hp' o o' rs X : grows hp hp' o o' rs -> views_of X rs ->
    forall a i, h_prev C o' = Some (View a i) -> h_prev C o = Some (View a i) \/ (c_diff C (h_params C o) = true /\ X = AArr a).
  Proof.
    intros (_ & _ & P & _) HV a i E. destruct P as [P|[P|(D & r & Hr & P)]]; [left; congruence|congruence|]. right. split; auto. rewrite P in E. injection E as ->. eapply HV; eauto.
  Qed.
  Lemma h_partial_fit_ok hp o v X : Est hp o v -> (forall a, X = AArr a -> a < length hp) ->
    let '(hp', o', e) := h_partial_fit C put hp o X in
    let '(v', e') := partial_fit v (arg_value hp X) in e = e' /\ Est hp' o' v' /\ exists rs, views_of X rs /\ grows hp hp' o o' rs.
  Proof.
    intros HE HA. unfold h_partial_fit, partial_fit. pose proof (as_rows_ok hp X HA) as K. destruct (h_as_rows hp X) as [rs|e].
    - destruct K as (-> & K1 & K2). pose proof (h_fit_rows_ok rs hp o v HE K1) as F. destruct (h_fit_rows C put hp o rs) as [[hp' o'] e]. destruct (fit_rows v _) as [v' e']. destruct F as (F1 & F2 & F3). split; [auto|]. split; [auto|]. eauto.
    - rewrite K. split; [reflexivity|]. split; [auto|]. exists []. split; [intros a i []|apply grows_refl].
  Qed.
  Lemma h_fit_ok hp o v X : Est hp o v -> (forall a, X = AArr a -> a < length hp) ->
    let '(hp', o', e) := h_fit C put hp o X in
    let '(v', e') := fit v (arg_value hp X) in e = e' /\ Est hp' o' v' /\ exists rs, views_of X rs /\ grows hp hp' o o' rs.
  Proof.
    intros HE HA. unfold h_fit, fit.
    assert (HE0 : Est hp (mkH C (h_params C o) None None (h_nfeat C o) None) (mkInst (i_params v) None (i_nfeat v) None)).
    { destruct HE as (E1 & E2 & E3 & E4 & E5). split; [auto|]. split; [auto|]. split; [auto|]. split; [reflexivity|exact I]. }
    assert (E2 : is_2d hp X = match arg_value hp X with In2 _ => true | _ => false end).
    { destruct X as [[]|a]; cbn; auto. destruct (nth_error hp a) as [[]|]; reflexivity. }
    assert (G0 : forall hp' o' rs, grows hp hp' (mkH C (h_params C o) None None (h_nfeat C o) None) o' rs -> grows hp hp' o o' rs).
    { intros hp' o' rs (G1 & G2 & G3 & G4). split; [auto|]. split; [|split; [|exact G4]].
      - destruct G2 as [G2|G2]; [right; left; exact G2|right; exact G2].
      - destruct G3 as [G3|[G3|G3]]; [right; left; exact G3|right; left; exact G3|right; right; exact G3]. }
    rewrite E2. pose proof (h_partial_fit_ok hp _ _ X HE0 HA) as K. destruct (arg_value hp X) as [w|rows|n] eqn:EV.
    - split; [reflexivity|]. split; [exact HE0|]. exists []. split; [intros a i []|]. apply G0, grows_refl.
    - destruct (h_partial_fit C put hp _ X) as [[hp' o'] e]. destruct (partial_fit _ (In2 rows)) as [v' e']. destruct K as (K1 & K2 & rs & K3 & K4). split; [auto|]. split; [auto|]. exists rs. auto.
    - split; [reflexivity|]. split; [exact HE0|]. exists []. split; [intros a i []|]. apply G0, grows_refl.
  Qed.

  Definition shared : bool := match put with Some _ => true | None => false end.
  Record Sim (fz : list bool) (w : world C) (v : vworld C) : Prop := mkSim {
    s_len : length fz = length (w_held C w);
    s_len' : length fz = length (v_held C v);
    s_val : forall i, match nth_error (w_held C w) i with
                      | Some (Some a) => exists c, nth_error (w_heap C w) a = Some c /\ nth_error (v_held C v) i = Some (Some c)
                      | Some None => nth_error (v_held C v) i = Some None
                      | None => True end;
    s_est : Est (w_heap C w) (w_est C w) (v_est C v);
    s_free : forall i a, nth i fz true = false -> nth_error (w_held C w) i = Some (Some a) ->
      (forall j, j <> i -> nth_error (w_held C w) j <> Some (Some a)) /\ h_mean C (w_est C w) <> Some a /\ (forall k, h_prev C (w_est C w) <> Some (View a k));
    s_diff : c_diff C (h_params C (w_est C w)) = false -> forall a k, h_prev C (w_est C w) <> Some (View a k)
  }.

  Lemma held_lt fz w v i a : Sim fz w v -> nth_error (w_held C w) i = Some (Some a) -> a < length (w_heap C w).
  Proof. intros S H. pose proof (s_val _ _ _ S i) as K. rewrite H in K. destruct K as (c & K & _). apply nth_error_Some. congruence. Qed.
  Lemma mean_lt hp o v a : Est hp o v -> h_mean C o = Some a -> a < length hp.
  Proof.
    intros (_ & _ & _ & M & _) H. unfold mean_ok in M. destruct (h_state C o), put; try congruence. destruct (c_mean _ _ _) as [m|]; try congruence.
    destruct M as (b & E & K). rewrite E in H. injection H as ->. apply nth_error_Some. congruence.
  Qed.
  Lemma prev_lt hp o v a k : Est hp o v -> h_prev C o = Some (View a k) -> a < length hp.
  Proof. intros (_ & _ & _ & _ & P) H. rewrite H in P. destruct (i_prev v); [|contradiction]. exact (proj2 P). Qed.
  Lemma nth_fz (fz : list bool) i b : nth i (fz ++ [b]) true = false -> nth i fz true = false /\ i < length fz \/ i = length fz /\ b = false.
  Proof.
    intros H. destruct (lt_eq_lt_dec i (length fz)) as [[K|K]|K].
    - left. rewrite app_nth1 in H by auto. auto.
    - right. subst i. rewrite app_nth2, Nat.sub_diag in H by lia. auto.
    - rewrite nth_overflow in H; [discriminate|]. rewrite app_length. cbn. lia.
  Qed.
  Lemma nth_fz_lt (fz : list bool) i : nth i fz true = false -> i < length fz.
  Proof. intros H. destruct (le_lt_dec (length fz) i); [|auto]. rewrite nth_overflow in H by auto. discriminate. Qed.
  Lemma sim_push fz w v hp' a c b : Sim fz w v -> (exists ext, hp' = w_heap C w ++ ext) -> nth_error hp' a = Some c ->
    (length (w_heap C w) <= a \/ b = true /\ h_mean C (w_est C w) = Some a) ->
    Sim (fz ++ [b]) (mkW C hp' (w_held C w ++ [Some a]) (w_est C w)) (mkV C (v_held C v ++ [Some c]) (v_est C v)).
  Proof.
    intros S (ext & ->) EC HA. pose proof (held_lt fz w v) as HLT. constructor; cbn.
    - rewrite !app_length, (s_len _ _ _ S). reflexivity.
    - rewrite !app_length, (s_len' _ _ _ S). reflexivity.
    - intros i. pose proof (s_val _ _ _ S i) as K. destruct (lt_eq_lt_dec i (length fz)) as [[Hi|Hi]|Hi].
      + rewrite !nth_error_app1; [|rewrite <- (s_len' _ _ _ S); auto|rewrite <- (s_len _ _ _ S); auto].
        destruct (nth_error (w_held C w) i) as [[a'|]|]; auto. destruct K as (c' & K1 & K2). exists c'. split; auto. now apply nth_app.
      + subst i. assert (Q1 : nth_error (w_held C w ++ [Some a]) (length fz) = Some (Some a)) by (rewrite (s_len _ _ _ S); apply nth_snoc). rewrite Q1. exists c. split; auto. rewrite (s_len' _ _ _ S). apply nth_snoc.
      + rewrite (proj2 (nth_error_None _ _)); auto. rewrite app_length, <- (s_len _ _ _ S). cbn. lia.
    - apply est_app, S.
    - intros i a' Hf Ha'. pose proof (s_est _ _ _ S) as E. apply nth_fz in Hf. destruct Hf as [[Hf Hi]|[-> ->]].
      + rewrite nth_error_app1 in Ha' by (rewrite <- (s_len _ _ _ S); auto). destruct (s_free _ _ _ S i a' Hf Ha') as (F1 & F2 & F3). split; [|auto].
        intros j Hj K. destruct (lt_eq_lt_dec j (length (w_held C w))) as [[Hl|Hl]|Hl].
        * rewrite nth_error_app1 in K by auto. now apply (F1 j).
        * subst j. rewrite nth_snoc in K. injection K as ->. destruct HA as [HA|[_ HA]]; [|contradiction]. pose proof (HLT i a' S Ha'). lia.
        * rewrite (proj2 (nth_error_None _ _)) in K; [discriminate|]. rewrite app_length. cbn. lia.
      + rewrite (s_len _ _ _ S), nth_snoc in Ha'. injection Ha' as <-. destruct HA as [HA|[HA _]]; [|discriminate]. split; [|split].
        * intros j Hj K. rewrite (s_len _ _ _ S) in Hj. destruct (lt_dec j (length (w_held C w))) as [Hl|Hl].
          -- rewrite nth_error_app1 in K by auto. pose proof (HLT j a S K). lia.
          -- rewrite (proj2 (nth_error_None _ _)) in K; [discriminate|]. rewrite app_length. cbn. lia.
        * intros K. pose proof (mean_lt _ _ _ _ E K). lia.
        * intros k K. pose proof (prev_lt _ _ _ _ _ E K). lia.
    - apply S.
  Qed.
  Lemma sim_push_none fz w v b : Sim fz w v -> Sim (fz ++ [b]) (mkW C (w_heap C w) (w_held C w ++ [None]) (w_est C w)) (mkV C (v_held C v ++ [None]) (v_est C v)).
  Proof.
    intros S. constructor; cbn.
    - rewrite !app_length, (s_len _ _ _ S). reflexivity.
    - rewrite !app_length, (s_len' _ _ _ S). reflexivity.
    - intros i. pose proof (s_val _ _ _ S i) as K. destruct (lt_eq_lt_dec i (length fz)) as [[Hi|Hi]|Hi].
      + rewrite !nth_error_app1; [exact K|rewrite <- (s_len' _ _ _ S); auto|rewrite <- (s_len _ _ _ S); auto].
      + subst i. assert (Q1 : nth_error (w_held C w ++ [None]) (length fz) = Some None) by (rewrite (s_len _ _ _ S); apply nth_snoc). rewrite Q1. rewrite (s_len' _ _ _ S). apply nth_snoc.
      + rewrite (proj2 (nth_error_None _ _)); auto. rewrite app_length, <- (s_len _ _ _ S). cbn. lia.
    - apply S.
    - intros i a' Hf Ha'. destruct (lt_eq_lt_dec i (length (w_held C w))) as [[Hl|Hl]|Hl].
      + rewrite nth_error_app1 in Ha' by auto. apply nth_fz in Hf. rewrite (s_len _ _ _ S) in Hf. destruct Hf as [[Hf _]|[? _]]; [|lia].
        destruct (s_free _ _ _ S i a' Hf Ha') as (F1 & F2 & F3). split; [|auto]. intros j Hj K. destruct (lt_eq_lt_dec j (length (w_held C w))) as [[Hq|Hq]|Hq].
        * rewrite nth_error_app1 in K by auto. now apply (F1 j).
        * subst j. rewrite nth_snoc in K. discriminate.
        * rewrite (proj2 (nth_error_None _ _)) in K; [discriminate|]. rewrite app_length. cbn. lia.
      + subst i. rewrite nth_snoc in Ha'. discriminate.
      + rewrite (proj2 (nth_error_None _ _)) in Ha'; [discriminate|]. rewrite app_length. cbn. lia.
    - apply S.
  Qed.
  Lemma sim_est fz fz' w v hp' o' v' X rs : Sim fz w v -> Est hp' o' v' -> views_of X rs -> grows (w_heap C w) hp' (w_est C w) o' rs ->
    length fz' = length fz ->
    (forall i, nth i fz' true = false -> nth i fz true = false /\
       (c_diff C (h_params C (w_est C w)) = true -> forall a, X = AArr a -> nth_error (w_held C w) i <> Some (Some a))) ->
    Sim fz' (mkW C hp' (w_held C w) o') (mkV C (v_held C v) v').
  Proof.
    intros S E HV G HL HF. pose proof G as ((ext & ->) & GM & _ & GP). constructor; cbn.
    - rewrite HL. apply S.
    - rewrite HL. apply S.
    - intros i. pose proof (s_val _ _ _ S i) as K. destruct (nth_error (w_held C w) i) as [[a'|]|]; auto. destruct K as (c & K1 & K2). exists c. split; auto. now apply nth_app.
    - exact E.
    - intros i a Hf Ha. destruct (HF i Hf) as [Hf0 HX]. destruct (s_free _ _ _ S i a Hf0 Ha) as (F1 & F2 & F3). split; [auto|]. split.
      + destruct GM as [->|[->|(b & -> & Hb)]]; [auto|discriminate|]. intros [= ->]. pose proof (held_lt fz w v i a S Ha). lia.
      + intros k K. destruct (grows_sub _ _ _ _ _ _ G HV a k K) as [K'|[D K']]; [now apply (F3 k)|]. now apply (HX D a K').
    - intros D a k K. rewrite GP in D. destruct (grows_sub _ _ _ _ _ _ G HV a k K) as [K'|[D' K']]; [|congruence]. now apply (s_diff _ _ _ S D a k).
  Qed.
  Lemma held_ok fz w v h : Sim fz w v ->
    match held C w h with
    | Some a => nth_error (w_held C w) h = Some (Some a) /\ exists c, nth_error (w_heap C w) a = Some c /\ nth_error (v_held C v) h = Some (Some c) /\ vheld C v h = Some c
    | None => vheld C v h = None end.
  Proof.
    intros S. unfold held, vheld. pose proof (s_val _ _ _ S h) as K. destruct (nth_error (w_held C w) h) as [[a|]|] eqn:E.
    - split; auto. destruct K as (c & K1 & K2). exists c. rewrite K2. auto.
    - now rewrite K.
    - rewrite (proj2 (nth_error_None _ _)); auto. rewrite <- (s_len' _ _ _ S), (s_len _ _ _ S). now apply nth_error_None.
  Qed.

  Definition next_fz (diff : bool) (fz : list bool) (c : @cmd N) : list bool :=
    match c with
    | Alloc _ | Read _ => fz ++ [false]
    | Location => fz ++ [shared]
    | PartialFitArr h | FitArr h => if diff then upd fz h true else fz
    | _ => fz
    end.
  Lemma step_ok fz w v c : Sim fz w v -> (forall h d, c = Write h d -> nth h fz false = false) ->
    let '(w', r) := step L C put w c in
    let '(v', r') := vstep L C v c in r = r' /\ Sim (next_fz (c_diff C (h_params C (w_est C w))) fz c) w' v' /\ h_params C (w_est C w') = h_params C (w_est C w).
  Proof.
    intros S HW. pose proof (s_est _ _ _ S) as E. pose proof (est_contents _ _ _ E) as EC.
    assert (EX : forall ext : heap, exists e, w_heap C w ++ ext = w_heap C w ++ e) by eauto.
    assert (ARR : forall (hf : heap -> hinst -> arg -> heap * hinst * res unit) (vf : inst C -> input N -> inst C * res unit),
      (forall hp o v X, Est hp o v -> (forall a, X = AArr a -> a < length hp) ->
        let '(hp', o', e) := hf hp o X in let '(v', e') := vf v (arg_value hp X) in e = e' /\ Est hp' o' v' /\ exists rs, views_of X rs /\ grows hp hp' o o' rs) ->
      (forall X, let '(w', r) := after C w (hf (w_heap C w) (w_est C w) (AList X)) in let '(v', r') := v_after C v (vf (v_est C v) X) in r = r' /\ Sim fz w' v' /\ h_params C (w_est C w') = h_params C (w_est C w)) /\
      (forall h, let '(w', r) := match held C w h with Some a => after C w (hf (w_heap C w) (w_est C w) (AArr a)) | None => (w, Err IndexError) end in
        let '(v', r') := match vheld C v h with Some c => v_after C v (vf (v_est C v) (value_of c)) | None => (v, Err IndexError) end in
        r = r' /\ Sim (if c_diff C (h_params C (w_est C w)) then upd fz h true else fz) w' v' /\ h_params C (w_est C w') = h_params C (w_est C w))).
    { intros hf vf H. split.
      - intros X. specialize (H (w_heap C w) (w_est C w) (v_est C v) (AList X) E ltac:(discriminate)). cbn [arg_value] in H.
        destruct (hf _ _ _) as [[hp' o'] e]. destruct (vf _ X) as [v' e']. destruct H as (-> & H1 & rs & H2 & H3). cbn. split; [reflexivity|]. split; [|exact (proj2 (proj2 (proj2 H3)))].
        eapply sim_est; eauto. intros i Hi. split; [auto|]. discriminate.
      - intros h. pose proof (held_ok fz w v h S) as K. destruct (held C w h) as [a|].
        + destruct K as (K1 & c0 & K2 & K3 & ->). specialize (H (w_heap C w) (w_est C w) (v_est C v) (AArr a) E). cbn [arg_value] in H. rewrite K2 in H.
          specialize (H ltac:(intros ? [= <-]; apply nth_error_Some; congruence)).
          destruct (hf _ _ _) as [[hp' o'] e]. destruct (vf _ _) as [v' e']. destruct H as (-> & H1 & rs & H2 & H3). cbn. split; [reflexivity|]. split; [|exact (proj2 (proj2 (proj2 H3)))].
          eapply sim_est; eauto; [destruct (c_diff _ _); [apply upd_length|reflexivity]|]. intros i Hi. destruct (c_diff _ _) eqn:D; [|split; [auto|discriminate]].
          apply nth_upd_true in Hi. destruct Hi as [[Hi Hn]|[Hl _]].
          * split; [auto|]. intros _ b [= <-] Q. destruct (s_free _ _ _ S i a Hi Q) as (F1 & _). exact (F1 h (not_eq_sym Hn) K1).
          * exfalso. assert (h < length (w_held C w)) by (apply nth_error_Some; congruence). rewrite (s_len _ _ _ S) in Hl. lia.
        + rewrite K. split; [reflexivity|]. split; [|reflexivity].
          destruct (c_diff _ _); [|exact S]. constructor; try apply S; try (rewrite upd_length; apply S).
          intros i a Hi. apply nth_upd_true in Hi. destruct Hi as [[Hi _]|[_ Hi]]; now apply (s_free _ _ _ S). }
    destruct c as [c|h c|h|X|h|X|h| |k|j]; cbn [step vstep next_fz].
    - cbn. rewrite nth_snoc. split; [reflexivity|]. split; [|reflexivity]. apply sim_push; eauto. apply nth_snoc.
    - pose proof (held_ok fz w v h S) as K. destruct (held C w h) as [a|].
      + destruct K as (K1 & d & K2 & K3 & ->). rewrite K2. destruct (same_shape d c); [|split; [reflexivity|split; [exact S|reflexivity]]]. split; [reflexivity|]. split; [|reflexivity].
        specialize (HW h c eq_refl). rewrite (nth_indep fz false true) in HW by (rewrite (s_len _ _ _ S); apply nth_error_Some; congruence). destruct (s_free _ _ _ S h a HW K1) as (F1 & F2 & F3). assert (La : a < length (w_heap C w)) by (apply nth_error_Some; congruence).
        constructor; cbn.
        * apply S.
        * rewrite upd_length. apply S.
        * intros i. pose proof (s_val _ _ _ S i) as K. destruct (Nat.eq_dec i h) as [->|Hn].
          -- rewrite K1. exists c. split; [now apply upd_same|]. apply upd_same. apply nth_error_Some. congruence.
          -- rewrite (upd_other (v_held C v)) by auto. destruct (nth_error (w_held C w) i) as [[b|]|] eqn:Eb; auto. destruct K as (c' & Q1 & Q2). exists c'. split; auto. rewrite upd_other; auto. intros ->. now apply (F1 i).
        * destruct E as (E1 & E2 & E3 & E4 & E5). split; [auto|]. split; [auto|]. split; [auto|]. split.
          -- unfold mean_ok in *. destruct (h_state C (w_est C w)), put; auto. destruct (c_mean _ _ _) as [m|]; auto. destruct E4 as (b & Q1 & Q2). exists b. split; auto. rewrite upd_other; auto. congruence.
          -- destruct (h_prev C (w_est C w)) as [[b i|]|], (i_prev (v_est C v)); auto. destruct E5 as [Q1 Q2]. cbn in *. rewrite upd_length, upd_other; auto. intros ->. now apply (F3 i).
        * apply S.
        * apply S.
      + rewrite K. split; [reflexivity|]. split; [exact S|reflexivity].
    - pose proof (held_ok fz w v h S) as K. destruct (held C w h) as [a|].
      + destruct K as (K1 & d & K2 & K3 & ->). rewrite K2. split; [reflexivity|]. split; [exact S|reflexivity].
      + rewrite K. split; [reflexivity|]. split; [exact S|reflexivity].
    - exact (proj1 (ARR (h_partial_fit C put) partial_fit h_partial_fit_ok) X).
    - exact (proj2 (ARR (h_partial_fit C put) partial_fit h_partial_fit_ok) h).
    - exact (proj1 (ARR (h_fit C put) fit h_fit_ok) X).
    - exact (proj2 (ARR (h_fit C put) fit h_fit_ok) h).
    - unfold h_location. rewrite EC. assert (LO : put <> None -> forall m, location_ (v_est C v) = Ok m -> exists a, h_mean C (w_est C w) = Some a /\ nth_error (w_heap C w) a = Some (A1 m)).
      { intros HN m EL. destruct E as (E1 & E2 & E3 & E4 & E5). unfold mean_ok in E4. rewrite E1, E2 in E4. unfold location_, fitted_state in EL. destruct (i_state (v_est C v)) as [s|]; [|discriminate].
        destruct (get_or 0 (c_nsamples C s)) as [n|]; [|discriminate]. cbn [bind] in EL. destruct (Nat.ltb n 1); [discriminate|]. cbn [bind] in EL. rewrite EL in E4. destruct put; [exact E4|contradiction]. }
      unfold shared. destruct (location_ (v_est C v)) as [m|e] eqn:EL; cbn [bind v_got got].
      + assert (FR : let '(w', r) := got C w (w_heap C w ++ [A1 m], Ok (length (w_heap C w))) in
          r = Ok (Some (A1 m)) /\ (forall b, Sim (fz ++ [b]) w' (mkV C (v_held C v ++ [Some (A1 m)]) (v_est C v))) /\ h_params C (w_est C w') = h_params C (w_est C w)).
        { cbn. rewrite nth_snoc. split; [reflexivity|]. split; [|reflexivity]. intros b. apply sim_push; eauto. apply nth_snoc. }
        destruct put as [f|].
        * destruct (LO ltac:(discriminate) m eq_refl) as (a & Em & Ha). rewrite Em. cbn. rewrite Ha. split; [reflexivity|]. split; [|reflexivity]. apply sim_push; auto. exists []. now rewrite app_nil_r.
        * destruct (got _ _ _) as [w' r]. destruct FR as (-> & F2 & F3). auto.
      + split; [reflexivity|]. split; [|reflexivity]. now apply sim_push_none.
    - unfold h_read. rewrite EC. destruct (read_prop L C k (v_est C v)) as [m|e]; cbn [bind v_got got].
      + rewrite nth_snoc. split; [reflexivity|]. split; [|reflexivity]. apply sim_push; eauto. apply nth_snoc.
      + split; [reflexivity|]. split; [|reflexivity]. now apply sim_push_none.
    - unfold h_set_state. rewrite EC. destruct (set_state (v_est C v) j) as [o'|e] eqn:ES.
      + assert (PP : i_prev o' = i_prev (v_est C v) /\ i_params o' = i_params (v_est C v)).
        { unfold set_state in ES. destruct j as [d|]; [destruct (c_set C d) as [[s nf]|]; [|discriminate]; cbn [bind] in ES|]; injection ES as <-; auto. }
        pose proof E as (E1 & E2 & E3 & E4 & E5). pose proof (store_ok (w_heap C w) (h_params C (w_est C w)) (i_state o') (i_nfeat o') (h_prev C (w_est C w)) (i_prev (v_est C v)) E5) as Q.
        destruct (store C put _ _ _ _ _) as [hp' o2]. destruct Q as (Q1 & Q2 & Q3 & Q4 & Q5). cbn. split; [reflexivity|]. split; [|exact Q5].
        eapply (sim_est fz fz w v hp' o2 _ (AList (InN 0)) []); eauto.
        * rewrite E1 in Q1. destruct PP as [P1 P2]. rewrite <- P1, <- P2 in Q1. destruct o'; exact Q1.
        * intros a i [].
        * split; [auto|]. split; [right; exact Q3|]. split; [now left|exact Q5].
        * intros i Hi. split; [auto|]. discriminate.
      + cbn. split; [reflexivity|]. split; [|reflexivity]. destruct w, v; exact S.
  Qed.

  Lemma exec_sim prog : forall fz w v, Sim fz w v -> polite shared (c_diff C (h_params C (w_est C w))) fz prog ->
    snd (exec L C put w prog) = snd (vexec L C v prog) /\ (exists fz', Sim fz' (fst (exec L C put w prog)) (fst (vexec L C v prog))) /\
    h_params C (w_est C (fst (exec L C put w prog))) = h_params C (w_est C w).
  Proof.
    induction prog as [|c prog IH]; intros fz w v S HP'; [cbn; eauto|]. cbn [exec vexec].
    assert (HW : forall h d, c = Write h d -> nth h fz false = false) by (intros h d ->; exact (proj1 HP')).
    pose proof (step_ok fz w v c S HW) as K. destruct (step L C put w c) as [w' r]. destruct (vstep L C v c) as [v' r']. destruct K as (-> & K1 & K2).
    specialize (IH _ w' v' K1). rewrite K2 in IH. destruct (exec L C put w' prog) as [w2 rs]. destruct (vexec L C v' prog) as [v2 rs']. cbn [fst snd] in *.
    destruct IH as (I1 & I2 & I3); [|split; [now f_equal|split; [exact I2|congruence]]].
    destruct c; cbn [next_fz polite] in *; auto. exact (proj2 HP').
  Qed.
  Theorem exec_ok prog : forall fz w v, Sim fz w v -> polite shared (c_diff C (h_params C (w_est C w))) fz prog ->
    snd (exec L C put w prog) = snd (vexec L C v prog).
  Proof.
    intros. eapply exec_sim; eauto.
  Qed.
  Lemma start_sim p : Sim [] (start C p) (vstart C p).
  Proof.
    constructor; cbn; auto.
    - intros i. now destruct i.
    - split; [reflexivity|]. split; [reflexivity|]. split; [reflexivity|]. split; [reflexivity|exact I].
    - intros [|i] a _ H; discriminate.
    - intros; discriminate.
  Qed.
End Sim.

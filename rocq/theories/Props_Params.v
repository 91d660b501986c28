(** * C82: constructor arguments, get_params, set_params, clone and repr, by name *)
From Coq Require Import ZArith Bool String List Lia.
From Verif Require Import Num Numpy PyVal LinalgModel BaseModel Estimators RegistryModel ParamsModel.
Import ListNotations.
Local Open Scope string_scope.

(** ** Vocabulary *)
(** The objects a program can hold: built by the constructor or by _clone, then any sequence of set_params calls
    (also failing ones) and of methods that change the data *)
Inductive reachable {N : Num} (k : Signed N) : pobj k -> Prop :=
| R_new kw o : construct k kw = Ok o -> reachable k o
| R_set o kw : reachable k o -> reachable k (fst (set_params k o kw))
| R_data o i : reachable k o -> reachable k (with_data k o i)
| R_clone o c : reachable k o -> clone k o = Ok c -> reachable k c.
(** [kw] overrides [ps] *)
Definition overridden {N : Num} (ps kw : kwargs N) : kwargs N :=
  map (fun e => (fst e, match dget (fst e) kw with Some v => v | None => snd e end)) ps.
Definition keys {A} (d : list (string * A)) : list string := map fst d.

(** ** Association lists *)
Lemma dget_kset_same {A} n (v : A) d : dget n (kset n v d) = Some v.
Proof. induction d as [|[n' v'] d IH]; simpl; [now rewrite String.eqb_refl|]. destruct (String.eqb n n') eqn:E; simpl; rewrite E; auto. Qed.
Lemma dget_kset_other {A} n n' (v : A) d : n' <> n -> dget n' (kset n v d) = dget n' d.
Proof.
  intros H. induction d as [|[m w] d IH]; simpl.
  - destruct (String.eqb_spec n' n); [contradiction|reflexivity].
  - destruct (String.eqb_spec n m); simpl.
    + subst. destruct (String.eqb_spec n' m); [contradiction|reflexivity].
    + destruct (String.eqb_spec n' m); auto.
Qed.
Lemma dget_None {A} n (d : list (string * A)) : ~ In n (keys d) -> dget n d = None.
Proof.
  induction d as [|[m w] d IH]; simpl; auto. intros H. destruct (String.eqb_spec n m); [subst; exfalso; apply H; auto|]. apply IH. tauto.
Qed.
Lemma dget_Some {A} n (d : list (string * A)) : In n (keys d) -> exists v, dget n d = Some v.
Proof.
  induction d as [|[m w] d IH]; simpl; [tauto|]. intros H. destruct (String.eqb_spec n m); [eauto|]. apply IH. destruct H; [congruence|auto].
Qed.
Lemma dget_overridden {N : Num} n (ps kw : kwargs N) :
  dget n (overridden ps kw) = match dget n ps with Some v => Some (match dget n kw with Some w => w | None => v end) | None => None end.
Proof.
  induction ps as [|[m w] ps IH]; simpl; auto. destruct (String.eqb_spec n m); [subst; reflexivity|exact IH].
Qed.
Lemma keys_overridden {N : Num} (ps kw : kwargs N) : keys (overridden ps kw) = keys ps.
Proof. unfold keys, overridden. rewrite map_map. reflexivity. Qed.
Lemma in_existsb n l : existsb (String.eqb n) l = true <-> In n l.
Proof.
  rewrite existsb_exists. split; [intros (x & H & E); apply String.eqb_eq in E; now subst|]. intros H. exists n. now rewrite String.eqb_refl.
Qed.
(** the attributes of a dict named [ns], in that order *)
Fixpoint pick {N : Num} (ns : list string) (d : kwargs N) : option (kwargs N) :=
  match ns with [] => Some [] | n :: ns' => match dget n d, pick ns' d with Some v, Some r => Some ((n, v) :: r) | _, _ => None end end.

Section Class.
  Context {N : Num} (k : Signed N).
  (** what is true of every registered class *)
  Record well_signed : Prop := {
    ws_nodup : NoDup (param_names k);
    ws_props : forall n, In n (param_names k) -> ~ In n properties;
    ws_read : forall d d', (forall n, In n (param_names k) -> dget n d = dget n d') -> sg_read k d = sg_read k d';
    ws_show : forall P, keys (sg_show k P) = param_names k /\ sg_read k (sg_show k P) = Some P }.
  Context (W : well_signed).

  Lemma get_params_pick o : get_params k o = match pick (param_names k) (ob_attrs o) with Some ps => Ok ps | None => Err AttributeError end.
  Proof.
    unfold get_params. generalize (param_names k). induction l as [|n l IH]; simpl; auto. rewrite IH.
    destruct (dget n (ob_attrs o)); simpl; auto. destruct (pick l (ob_attrs o)); reflexivity.
  Qed.
  Lemma pick_total ns (d : kwargs N) : (forall n, In n ns -> In n (keys d)) -> exists ps, pick ns d = Some ps /\ keys ps = ns /\ (forall n, In n ns -> dget n ps = dget n d).
  Proof.
    induction ns as [|n ns IH]; intros H; [exists []; simpl; repeat split; auto; contradiction|].
    destruct (dget_Some n d (H n (or_introl eq_refl))) as [v E]. destruct (IH (fun m Hm => H m (or_intror Hm))) as (ps & E1 & E2 & E3).
    exists ((n, v) :: ps). cbn [pick]. rewrite E, E1. split; auto. split; [simpl; now rewrite E2|].
    intros m Hm. simpl. destruct (String.eqb_spec m n); [congruence|]. apply E3. destruct Hm; [congruence|auto].
  Qed.
  Lemma pick_ext ns (d d' : kwargs N) : (forall n, In n ns -> dget n d = dget n d') -> pick ns d = pick ns d'.
  Proof. induction ns as [|n ns IH]; intros H; simpl; auto. rewrite (H n (or_introl eq_refl)), IH; auto. intros. apply H. now right. Qed.
  Lemma pick_self (d : kwargs N) : NoDup (keys d) -> pick (keys d) d = Some d.
  Proof.
    induction d as [|[n v] d IH]; intros H; simpl; auto. rewrite String.eqb_refl. inversion H as [|? ? H1 H2]; subst.
    rewrite (pick_ext (keys d) ((n, v) :: d) d); [rewrite IH by auto; reflexivity|]. intros m Hm. simpl. destruct (String.eqb_spec m n); [subst; contradiction|reflexivity].
  Qed.

  Lemma keys_kset n m (v : pyv N) d : In n (keys d) -> In n (keys (kset m v d)).
  Proof. induction d as [|[m' w] d IH]; simpl; [tauto|]. destruct (String.eqb m m'); simpl; tauto. Qed.
  Lemma set_params_keys kw : forall o n, In n (keys (ob_attrs o)) -> In n (keys (ob_attrs (fst (set_params k o kw)))).
  Proof.
    induction kw as [|[m v] kw IH]; intros o n H; [exact H|]. cbn [set_params].
    destruct (existsb (String.eqb m) properties); [exact H|]. apply IH. cbn [ob_attrs]. now apply keys_kset.
  Qed.
  (** every reachable object has its constructor's attributes *)
  Lemma reach_has o : reachable k o -> forall n, In n (param_names k) -> In n (keys (ob_attrs o)).
  Proof.
    assert (C : forall kw o, construct k kw = Ok o -> forall n, In n (param_names k) -> In n (keys (ob_attrs o))).
    { intros kw o' H. unfold construct in H. destruct (forallb _ _); [|discriminate]. injection H as <-. cbn [ob_attrs]. intros n Hn.
      change (In n (keys (overridden (sg_params k) kw))). rewrite keys_overridden. exact Hn. }
    induction 1 as [kw o H|o kw H IH|o i H IH|o c H IH Hc].
    - eapply C, H.
    - intros n Hn. apply set_params_keys. auto.
    - exact IH.
    - unfold clone in Hc. destruct (get_params k o) as [ps|]; cbn [bind] in Hc; [|discriminate]. eapply C, Hc.
  Qed.
  Lemma reach_params o : reachable k o ->
    exists ps, get_params k o = Ok ps /\ keys ps = param_names k /\ (forall n, In n (param_names k) -> dget n ps = dget n (ob_attrs o)).
  Proof.
    intros H. destruct (pick_total (param_names k) (ob_attrs o) (reach_has o H)) as (ps & E & K & G). exists ps. rewrite get_params_pick, E. auto.
  Qed.
  (** what a dict with the right keys is determined by *)
  Lemma dict_ext (ps ps' : kwargs N) : keys ps = keys ps' -> NoDup (keys ps) -> (forall n, In n (keys ps) -> dget n ps = dget n ps') -> ps = ps'.
  Proof.
    intros K D G. pose proof (pick_self ps D) as A. assert (D' : NoDup (keys ps')) by (rewrite <- K; exact D). pose proof (pick_self ps' D') as B.
    rewrite <- K in B. rewrite (pick_ext _ _ _ G), B in A. now injection A.
  Qed.

  Definition settable (kw : kwargs N) : Prop := NoDup (keys kw) /\ forall n, In n (keys kw) -> ~ In n properties.
  Lemma set_params_ok kw : forall o, settable kw ->
    snd (set_params k o kw) = Ok tt
    /\ ob_state (fst (set_params k o kw)) = ob_state o /\ ob_nfeat (fst (set_params k o kw)) = ob_nfeat o /\ ob_prev (fst (set_params k o kw)) = ob_prev o
    /\ (forall n, dget n (ob_attrs (fst (set_params k o kw))) = match dget n kw with Some v => Some v | None => dget n (ob_attrs o) end).
  Proof.
    induction kw as [|[m v] kw IH]; intros o [D P]; [simpl; auto|]. cbn [set_params].
    destruct (existsb (String.eqb m) properties) eqn:E; [apply in_existsb in E; exfalso; apply (P m); simpl; auto|].
    inversion D as [|? ? D1 D2]; subst.
    destruct (IH (mkPobj (kset m v (ob_attrs o)) (ob_state o) (ob_nfeat o) (ob_prev o))) as (A & B & C & F & G).
    { split; [exact D2|]. intros n Hn. apply P. now right. }
    split; [exact A|]. split; [exact B|]. split; [exact C|]. split; [exact F|]. intros n. rewrite G. cbn [dget ob_attrs].
    destruct (String.eqb_spec n m) as [->|Hne].
    - rewrite (dget_None m kw D1). apply dget_kset_same.
    - destruct (dget n kw); auto. now apply dget_kset_other.
  Qed.
End Class.

Lemma signed_well {N : Num} (L : LinAlg N) fuel (k : Signed N) : In k (signatures L fuel) -> well_signed k.
Proof.
  intros H. repeat (destruct H as [<-|H]; [split;
    [ cbn; repeat constructor; cbn; intuition discriminate
    | cbn; intros n Hn Hp; intuition (subst; discriminate)
    | cbn; intros d d' E; unfold read_ewa, read_blk, rd_num, rd_int, rd_bool, rd_str, rd_optnum, rd_num; repeat rewrite E by tauto; reflexivity
    | cbn; intros P; destruct P; repeat match goal with v : option _ |- _ => destruct v end; split; reflexivity ] |]); contradiction.
Qed.

Section Claims.
  Context {N : Num} (L : LinAlg N) (fuel : nat).

Theorem C82_registry :
  map (fun k => sg_class k) (signatures L fuel) = map (fun r => rg_class r) (registry L fuel).
Proof. reflexivity. Qed.

(** A constructor call is accepted exactly when every keyword is one of the class's parameters (otherwise: TypeError);
    nothing is validated or converted, and get_params gives back, in order, what was given or the default. *)
Theorem C82_constructor (k : Signed N) (kw : kwargs N) : In k (signatures L fuel) ->
  ((forall n, In n (keys kw) -> In n (keys (sg_params k))) ->
     exists o, construct k kw = Ok o /\ get_params k o = Ok (overridden (sg_params k) kw)
               /\ ob_state o = None /\ ob_nfeat o = None /\ ob_prev o = None) /\
  ((exists n, In n (keys kw) /\ ~ In n (keys (sg_params k))) -> construct k kw = Err TypeError).
Proof.
  intros Hk. pose proof (signed_well L fuel k Hk) as W. unfold construct. split.
  - intros H. replace (forallb _ kw) with true.
    2:{ symmetry. apply forallb_forall. intros e He. apply in_existsb. apply H. now apply in_map. }
    eexists. split; [reflexivity|]. cbn [ob_attrs ob_state ob_nfeat ob_prev]. repeat split; auto.
    rewrite get_params_pick. cbn [ob_attrs]. change (map _ (sg_params k)) with (overridden (sg_params k) kw).
    unfold param_names. change (map fst (sg_params k)) with (keys (sg_params k)). rewrite <- (keys_overridden (sg_params k) kw).
    rewrite pick_self; [reflexivity|]. rewrite keys_overridden. exact (ws_nodup k W).
  - intros (n & Hn & Hu). replace (forallb _ kw) with false; auto. symmetry. apply not_true_iff_false. intros T.
    rewrite forallb_forall in T. unfold keys in Hn. apply in_map_iff in Hn. destruct Hn as (e & <- & He). apply Hu. specialize (T e He). apply in_existsb in T. exact T.
Qed.

(** get_params never fails on an object a program can hold, and lists exactly the constructor's parameters in its order. *)
Theorem C82_get_params_total (k : Signed N) (o : pobj k) : In k (signatures L fuel) -> reachable k o ->
  exists ps, get_params k o = Ok ps /\ keys ps = keys (sg_params k).
Proof. intros Hk R. destruct (reach_params k o R) as (ps & E & K & _). exists ps. split; auto. Qed.

(** set_params with names that are not read-only properties: accepted, the data attributes are untouched, get_params shows the new
    values and no other change. *)
Theorem C82_set_params (k : Signed N) (o : pobj k) (ps kw : kwargs N) : In k (signatures L fuel) -> reachable k o ->
  get_params k o = Ok ps -> NoDup (keys kw) -> (forall n, In n (keys kw) -> ~ In n properties) ->
  exists o', set_params k o kw = (o', Ok tt) /\ get_params k o' = Ok (overridden ps kw)
             /\ ob_state o' = ob_state o /\ ob_nfeat o' = ob_nfeat o /\ ob_prev o' = ob_prev o.
Proof.
  intros Hk R E D P. pose proof (signed_well L fuel k Hk) as W.
  destruct (set_params_ok k kw o (conj D P)) as (A & B & C & F & G).
  exists (fst (set_params k o kw)). split; [rewrite <- A; apply surjective_pairing|]. split; [|auto].
  destruct (reach_params k o R) as (ps' & E' & K & G'). rewrite E in E'. injection E' as <-.
  destruct (reach_params k _ (R_set k o kw R)) as (ps2 & E2 & K2 & G2). rewrite E2. f_equal. apply dict_ext.
  - rewrite keys_overridden. congruence.
  - rewrite K2. exact (ws_nodup k W).
  - intros n Hn. rewrite K2 in Hn. rewrite (G2 n Hn), G, dget_overridden, (G' n Hn).
    destruct (dget_Some n (ob_attrs o) (reach_has k o R n Hn)) as [v ->]. destruct (dget n kw); reflexivity.
Qed.

(** A misspelt name is not an error: set_params accepts it, and nothing the parameters or the methods see has changed. *)
Theorem C82_unknown_name_silent (k : Signed N) (o : pobj k) (n : string) (v : pyv N) : In k (signatures L fuel) -> reachable k o ->
  ~ In n (keys (sg_params k)) -> ~ In n properties -> ~ In n internal ->
  exists o', set_params k o [(n, v)] = (o', Ok tt) /\ get_params k o' = get_params k o /\ view k o' = view k o.
Proof.
  intros Hk R H1 H2 _. pose proof (signed_well L fuel k Hk) as W. cbn [set_params].
  destruct (existsb (String.eqb n) properties) eqn:E; [apply in_existsb in E; contradiction|].
  eexists. split; [reflexivity|].
  assert (G : forall m, In m (param_names k) -> dget m (kset n v (ob_attrs o)) = dget m (ob_attrs o)).
  { intros m Hm. apply dget_kset_other. intros ->. contradiction. }
  split.
  - rewrite !get_params_pick. cbn [ob_attrs]. now rewrite (pick_ext _ _ _ G).
  - unfold view. cbn [ob_attrs ob_state ob_nfeat ob_prev]. now rewrite (ws_read k W _ _ G).
Qed.

(** Assigning a fitted attribute through set_params raises AttributeError; the keywords before it stay assigned and those after
    it are not. *)
Theorem C82_property_rejected (k : Signed N) (o : pobj k) (ps kw1 kw2 : kwargs N) (n : string) (v : pyv N) : In k (signatures L fuel) -> reachable k o ->
  get_params k o = Ok ps -> NoDup (keys kw1) -> (forall m, In m (keys kw1) -> ~ In m properties) -> In n properties ->
  exists o', set_params k o (kw1 ++ (n, v) :: kw2)%list = (o', Err AttributeError) /\ get_params k o' = Ok (overridden ps kw1)
             /\ ob_state o' = ob_state o /\ ob_nfeat o' = ob_nfeat o /\ ob_prev o' = ob_prev o.
Proof.
  intros Hk R E D P Hn. destruct (C82_set_params k o ps kw1 Hk R E D P) as (o' & S & G). exists o'. split; [|exact G].
  assert (A : set_params k o (kw1 ++ (n, v) :: kw2)%list = (fst (set_params k o kw1), Err AttributeError)); [|rewrite A, S; reflexivity].
  clear - Hn P. revert o. induction kw1 as [|[m w] kw1 IH]; intros o.
  - simpl app. cbn [set_params fst]. apply in_existsb in Hn. now rewrite Hn.
  - simpl app. cbn [set_params]. destruct (existsb (String.eqb m) properties) eqn:E; [apply in_existsb in E; exfalso; apply (P m); simpl; auto|].
    apply IH; auto. intros x Hx. apply P. now right.
Qed.

(** set_params called with get_params() of the same object changes nothing observable. *)
Theorem C82_roundtrip (k : Signed N) (o : pobj k) (ps : kwargs N) : In k (signatures L fuel) -> reachable k o -> get_params k o = Ok ps ->
  exists o', set_params k o ps = (o', Ok tt) /\ get_params k o' = Ok ps /\ view k o' = view k o.
Proof.
  intros Hk R E. pose proof (signed_well L fuel k Hk) as W.
  destruct (reach_params k o R) as (ps' & E' & K & G'). rewrite E in E'. injection E' as <-.
  assert (S : settable ps). { split; rewrite K; [exact (ws_nodup k W)|exact (ws_props k W)]. }
  destruct (set_params_ok k ps o S) as (A & B & C & F & G).
  assert (Q : forall n, In n (param_names k) -> dget n (ob_attrs (fst (set_params k o ps))) = dget n (ob_attrs o)).
  { intros n Hn. rewrite G, (G' n Hn). destruct (dget n (ob_attrs o)); reflexivity. }
  exists (fst (set_params k o ps)). split; [rewrite <- A; apply surjective_pairing|]. split.
  - rewrite <- E, !get_params_pick. now rewrite (pick_ext _ _ _ Q).
  - unfold view. now rewrite B, C, F, (ws_read k W _ _ Q).
Qed.

(** _clone never fails on a reachable object: the clone has the same parameters and no data, whatever the object had learnt and whatever
    stray names were set on it; what the methods see is the clone of what they saw. *)
Theorem C82_clone (k : Signed N) (o : pobj k) : In k (signatures L fuel) -> reachable k o ->
  exists c, clone k o = Ok c /\ get_params k c = get_params k o
            /\ ob_state c = None /\ ob_nfeat c = None /\ ob_prev c = None
            /\ view k c = option_map (BaseModel.clone (C := sg_class k)) (view k o).
Proof.
  intros Hk R. pose proof (signed_well L fuel k Hk) as W.
  destruct (reach_params k o R) as (ps & E & K & G).
  destruct (proj1 (C82_constructor k ps Hk)) as (c & Ec & Pc & S1 & S2 & S3). { intros n Hn. rewrite K in Hn. exact Hn. }
  exists c. unfold clone. rewrite E. cbn [bind]. split; [exact Ec|].
  assert (O : overridden (sg_params k) ps = ps).
  { apply dict_ext; [now rewrite keys_overridden|rewrite keys_overridden; exact (ws_nodup k W)|].
    intros n Hn. rewrite keys_overridden in Hn. rewrite dget_overridden. destruct (dget_Some n _ Hn) as [v ->].
    assert (I : In n (keys ps)) by (rewrite K; exact Hn). destruct (dget_Some n _ I) as [w ->]. reflexivity. }
  split; [rewrite Pc, O; reflexivity|]. repeat (split; [assumption|]).
  unfold view, BaseModel.clone, new. rewrite S1, S2, S3. unfold construct in Ec. destruct (forallb _ _); [|discriminate]. injection Ec as <-. cbn [ob_attrs].
  change (map _ (sg_params k)) with (overridden (sg_params k) ps). rewrite O.
  rewrite (ws_read k W ps (ob_attrs o) G). destruct (sg_read k (ob_attrs o)); reflexivity.
Qed.

(** The typed parameters used by every other property are the keyword arguments: constructing with the keywords of [P] gives the fresh
    estimator with parameters [P], get_params returns these keywords, and set_params with them is the typed set_params. *)
Theorem C82_typed_constructor (k : Signed N) (P : c_P (sg_class k)) : In k (signatures L fuel) ->
  exists o, construct k (sg_show k P) = Ok o /\ get_params k o = Ok (sg_show k P) /\ view k o = Some (new (C := sg_class k) P).
Proof.
  intros Hk. pose proof (signed_well L fuel k Hk) as W. destruct (ws_show k W P) as [K RD].
  destruct (proj1 (C82_constructor k (sg_show k P) Hk)) as (c & Ec & Pc & S1 & S2 & S3). { intros n Hn. rewrite K in Hn. exact Hn. }
  exists c. split; [exact Ec|].
  assert (O : overridden (sg_params k) (sg_show k P) = sg_show k P).
  { apply dict_ext; [now rewrite keys_overridden|rewrite keys_overridden; exact (ws_nodup k W)|].
    intros n Hn. rewrite keys_overridden in Hn. rewrite dget_overridden. destruct (dget_Some n _ Hn) as [v ->].
    assert (I : In n (keys (sg_show k P))) by (rewrite K; exact Hn). destruct (dget_Some n _ I) as [w ->]. reflexivity. }
  split; [rewrite Pc, O; reflexivity|].
  unfold view, new. rewrite S1, S2, S3. unfold construct in Ec. destruct (forallb _ _); [|discriminate]. injection Ec as <-. cbn [ob_attrs].
  change (map _ (sg_params k)) with (overridden (sg_params k) (sg_show k P)). now rewrite O, RD.
Qed.

Theorem C82_typed_set_params (k : Signed N) (o : pobj k) (i : inst (sg_class k)) (P : c_P (sg_class k)) : In k (signatures L fuel) ->
  view k o = Some i ->
  exists o', set_params k o (sg_show k P) = (o', Ok tt) /\ view k o' = Some (BaseModel.set_params i P).
Proof.
  intros Hk V. pose proof (signed_well L fuel k Hk) as W. destruct (ws_show k W P) as [K RD].
  assert (S : settable (sg_show k P)). { split; rewrite K; [exact (ws_nodup k W)|exact (ws_props k W)]. }
  destruct (set_params_ok k (sg_show k P) o S) as (A & B & C & F & G).
  exists (fst (set_params k o (sg_show k P))). split; [rewrite <- A; apply surjective_pairing|].
  unfold view in *. destruct (sg_read k (ob_attrs o)) as [P0|]; [|discriminate]. injection V as <-. cbn [option_map] in *.
  rewrite B, C, F. rewrite (ws_read k W _ (sg_show k P)); [now rewrite RD|].
  intros n Hn. rewrite G. rewrite <- K in Hn. destruct (dget_Some n _ Hn) as [v ->]. reflexivity.
Qed.

(** Whatever value is stored in [diff], an instance differences exactly when Python's [bool(value)] is True. *)
Definition py_truth (v : pyv N) : Prop :=
  match v with
  | PvBool b => b = true
  | PvNone => False
  | PvStr s => s <> ""
  | PvInt z => z <> 0%Z
  | PvNum x => ~ (nleb x n0 = true /\ nleb n0 x = true)   (* x == 0.0 is False *)
  end.
Theorem C82_diff_flag (k : Signed N) (o : pobj k) (i : inst (sg_class k)) : In k (signatures L fuel) -> view k o = Some i ->
  exists v, dget "diff" (ob_attrs o) = Some v /\ (c_diff (sg_class k) (i_params i) = true <-> py_truth v).
Proof.
  intros Hk V. unfold view in V. destruct (sg_read k (ob_attrs o)) as [P|] eqn:E; [|discriminate V]. cbn in V. injection V as <-. cbn [i_params].
  assert (B : forall d b, rd_bool (N := N) "diff" d = Some b -> exists v, dget "diff" d = Some v /\ (b = true <-> py_truth v)).
  { intros d b H. unfold rd_bool in H. destruct (dget "diff" d) as [v|]; [|discriminate H]. exists v. split; [reflexivity|].
    destruct v as [x|z|c|s|]; injection H as <-; cbn [py_truth].
    - destruct (nleb x n0), (nleb n0 x); cbn; intuition congruence.
    - destruct (Z.eqb_spec z 0); cbn; intuition congruence.
    - intuition.
    - destruct (String.eqb_spec s ""); cbn; intuition congruence.
    - intuition congruence. }
  repeat (destruct Hk as [<-|Hk]; [cbn in E; unfold read_ewa, read_blk in E;
    repeat match type of E with (match ?a with Some _ => _ | None => None end) = _ => destruct a eqn:?; [|discriminate E] end;
    injection E as <-; cbn; eapply B; eassumption|]). contradiction.
Qed.

(** repr shows the class name and the parameters and nothing else: it is the same before and after learning, and
    for a clone. *)
Theorem C82_repr (k : Signed N) (show : pyv N -> string) (o : pobj k) : In k (signatures L fuel) -> reachable k o ->
  exists s, repr k show o = Ok s /\ (forall i, repr k show (with_data k o i) = Ok s) /\ (forall c, clone k o = Ok c -> repr k show c = Ok s)
            /\ (forall ps, get_params k o = Ok ps -> s = c_name (sg_class k) ++ "(" ++ join ", " (map (fun e => fst e ++ "=" ++ show (snd e)) ps) ++ ")").
Proof.
  intros Hk R. destruct (reach_params k o R) as (ps & E & K & G). eexists. unfold repr at 1. rewrite E. cbn [bind]. split; [reflexivity|]. split; [|split].
  - intros i. unfold repr. change (get_params k (with_data k o i)) with (get_params k o). rewrite E. reflexivity.
  - intros c Hc. destruct (C82_clone k o Hk R) as (c' & E1 & E2 & _). rewrite E1 in Hc. injection Hc as <-. unfold repr. rewrite E2, E. reflexivity.
  - intros ps' E'. assert (ps' = ps) as -> by congruence. reflexivity.
Qed.
End Claims.

(** ** Witnesses *)
Example C82_defaults_example : forall (N : Num) (L : LinAlg N) (k : Signed N), In k (signatures L 5) ->
  match construct k [] with Ok o => match view k o with Some i => true | None => false end | Err _ => false end = true.
Proof. intros N L k H. repeat (destruct H as [<-|H]; [reflexivity|]). contradiction. Qed.
Example C82_adaptive_example : forall (N : Num) (L : LinAlg N), let k := nth 4 (signatures L 5) (mkSigned Empirical [] (fun _ => None) (fun _ => [])) in
  exists o o', construct k [("max_r", PvNum (nofZ 1))] = Ok o
    /\ set_params k o [("diff", PvBool true); ("rr", PvNum (nofZ 0))] = (o', Ok tt)
    /\ get_params k o' = Ok [("r", PvNum (nlit 5 2)); ("max_r", PvNum (nofZ 1)); ("diff", PvBool true)]
    /\ construct k [("rr", PvNum (nofZ 0))] = Err TypeError.
Proof. intros N L k. eexists _, _. repeat split. Qed.

(** * C93: checkpoints with missing entries

    [set_state] of the dict-based classes accepts any dictionary; what is missing shows at the next observation. BlockCovariance
    checks at once. *)
From Coq Require Import ZArith Bool String List Lia Arith.
From Verif Require Import Num NumFloat Numpy PyVal LinalgModel StateModel BaseModel Estimators RegistryModel Spec ListLemmas BaseProofs Shapes ClassShapes BlockShapes StreamProofs RegistryProofs Props_Stream Props_OneVar.
Import ListNotations.
Local Open Scope string_scope.

(** ** Specification *)
(** the checkpoint with only the entries whose name satisfies [keep] *)
Definition only {V} (keep : string -> bool) (j : list (string * V)) : list (string * V) := filter (fun kv => keep (fst kv)) j.
(** an entry is missing *)
Definition incomplete {V} (keep : string -> bool) (j : list (string * V)) : Prop := exists key, In key (map fst j) /\ keep key = false.
(** The estimator fitted on [rows] is checkpointed, entries are lost, another estimator of the class loads what is left (no exception),
    and is given a row: KeyError, and nothing changes.  Without the sample count it counts as unfitted.  [ok] restricts the parameters of both. *)
Definition detected_later {N} (C : EstClass N) (ok : c_P C -> Prop) : Prop :=
  forall P p rows o j keep (o' : inst C) x, c_diff C P = false -> ok P -> 1 <= p -> rows_of_length p rows -> rows <> [] ->
    partial_fit (new (C := C) P) (In2 rows) = (o, Ok tt) -> get_state o = Ok (Some j) -> incomplete keep j ->
    c_diff C (i_params o') = false -> ok (i_params o') ->
    exists o1, set_state o' (Some (only keep j)) = Ok o1 /\ partial_fit o1 (In1 x) = (o1, Err KeyError) /\
      (keep "n_samples" = false -> location_ o1 = Err NotFittedError /\ covariance_ o1 = Err NotFittedError /\ n_samples_ o1 = Err KeyError).

(** ** Reading a dictionary with entries missing *)
Lemma dget_only {V} keep (d : list (string * V)) k : dget k (only keep d) = if keep k then dget k d else None.
Proof.
  induction d as [|[a v] d IH]; cbn [only filter dget fst]; [destruct (keep k); reflexivity|]. destruct (String.eqb_spec k a) as [<-|Hn].
  - destruct (keep k) eqn:E; cbn [dget]; [now rewrite String.eqb_refl|exact IH].
  - destruct (keep a); cbn [dget]; [|exact IH]. destruct (String.eqb_spec k a); [contradiction|exact IH].
Qed.
Section Get.
  Context {N : Num}.
  Variables (keep : string -> bool) (s : dict N).
  Lemma getI_only k : getI k (only keep s) = if keep k then getI k s else Err KeyError.
  Proof. unfold getI. rewrite dget_only. now destruct (keep k). Qed.
  Lemma getN_only k : getN k (only keep s) = if keep k then getN k s else Err KeyError.
  Proof. unfold getN. rewrite dget_only. now destruct (keep k). Qed.
  Lemma getV_only k : getV k (only keep s) = if keep k then getV k s else Err KeyError.
  Proof. unfold getV. rewrite dget_only. now destruct (keep k). Qed.
  Lemma getM_only k : getM k (only keep s) = if keep k then getM k s else Err KeyError.
  Proof. unfold getM. rewrite dget_only. now destruct (keep k). Qed.
  Lemma getT_only k : getT k (only keep s) = if keep k then getT k s else Err KeyError.
  Proof. unfold getT. rewrite dget_only. now destruct (keep k). Qed.
End Get.
Ltac all_kept := exfalso; match goal with H : incomplete _ _ |- _ => let k := fresh in let H1 := fresh in let H2 := fresh in destruct H as (k & H1 & H2);
  cbn [map fst In] in H1; repeat (destruct H1 as [H1|H1]; [subst k; congruence|]); contradiction end.
Ltac rd := rewrite ?getI_only, ?getN_only, ?getV_only, ?getM_only, ?getT_only.
Ltac ask := repeat (rd; first [reflexivity | match goal with
  | |- bind (if ?keep ?k then _ else _) _ = _ => let E := fresh "K" in destruct (keep k) eqn:E; [cbn [getI getN getV getM getT dget String.eqb Ascii.eqb Bool.eqb bind]|reflexivity]
  | |- bind (bind (if ?keep ?k then _ else _) _) _ = _ => let E := fresh "K" in destruct (keep k) eqn:E; [cbn [getI getN getV getM getT dget String.eqb Ascii.eqb Bool.eqb bind]|reflexivity]
  | |- (if Nat.ltb _ _ then _ else _) = _ => destruct (Nat.ltb _ _); unfold emp_update
  end]); all_kept.
Section Miss.
  Context {N : Num} (L : LinAlg N).
  Variables (p : nat) (keep : string -> bool).
  Lemma miss_emp (s : dict N) x : conforms (sch_emp p) s -> incomplete keep s -> emp_update (only keep s) x = Err KeyError.
  Proof. intros H I. open_sch H. unfold emp_update. ask. Qed.
  Lemma miss_ewa (s : dict N) x : conforms (sch_ewa p) s -> incomplete keep s -> ewa_update (only keep s) x = Err KeyError.
  Proof. intros H I. open_sch H. unfold ewa_update. ask. Qed.
  Lemma miss_diag (s : dict N) x : conforms (sch_diag p) s -> incomplete keep s -> diag_update (only keep s) x = Err KeyError.
  Proof. intros H I. open_sch H. unfold diag_update. ask. Qed.
  Lemma miss_ada (s : dict N) x : conforms (sch_ada p) s -> incomplete keep s -> ada_update L (only keep s) x = Err KeyError.
  Proof. intros H I. open_sch H. unfold ada_update. ask. Qed.
  Lemma miss_lw (s : dict N) x : conforms (sch_lw p) s -> incomplete keep s -> lw_update (only keep s) x = Err KeyError.
  Proof. intros H I. open_sch H. unfold lw_update. ask. Qed.
  Lemma miss_pm (s : dict N) x : conforms (sch_pm p) s -> incomplete keep s -> pm_update (only keep s) x = Err KeyError.
  Proof. intros H I. open_sch H. unfold pm_update. ask. Qed.
  Lemma miss_hub P (s : dict N) x : conforms (sch_ewa p) s -> incomplete keep s -> hub_update L P (only keep s) x = Err KeyError.
  Proof. intros H I. open_sch H. unfold hub_update. ask. Qed.
  Lemma miss_tyl (s : dict N) x : conforms (sch_tyl p) s -> incomplete keep s -> tyl_update L (only keep s) x = Err KeyError.
  Proof. intros H I. open_sch H. unfold tyl_update. ask. Qed.
  Lemma miss_geo (s : dict N) x : conforms (sch_ewa p) s -> incomplete keep s -> geo_update L (only keep s) x = Err KeyError.
  Proof. intros H I. open_sch H. unfold geo_update. ask. Qed.
  Lemma miss_dcc (s : dict N) x : conforms (sch_dcc1 p) s -> incomplete keep s -> dcc_update (only keep s) x = Err KeyError.
  Proof. intros H I. open_sch H. unfold dcc_update. ask. Qed.
  Lemma miss_fac k (s : dict N) x : conforms (sch_fac k p) s -> incomplete keep s -> fac_update (only keep s) x = Err KeyError.
  Proof. intros H I. open_sch H. unfold fac_update. ask. Qed.
  Lemma miss_slw P (s : dict N) x : 1 <= p -> (1 <= blk_n_blocks P)%Z -> conforms (sch_slw p) s -> incomplete keep s -> slw_update P (only keep s) x = Err KeyError.
  Proof.
    intros Hp Hb H I. open_sch H. unfold slw_update. 
    assert (B : exists bid, block_id (blk_n_blocks P) p = Ok bid).
    { unfold block_id, split_sizes. destruct (Z.leb_spec (Z.min (blk_n_blocks P) (Z.of_nat p)) 0); [lia|]. cbn [bind]. eauto. }
    destruct B as (bid & B).
    repeat (rd; rewrite ?B; first [reflexivity | match goal with
  | |- bind (if ?keep ?k then _ else _) _ = _ => let E := fresh "K" in destruct (keep k) eqn:E; [cbn [getI getN getV getM getT dget String.eqb Ascii.eqb Bool.eqb bind]|reflexivity]
  | |- bind (bind (if ?keep ?k then _ else _) _) _ = _ => let E := fresh "K" in destruct (keep k) eqn:E; [cbn [getI getN getV getM getT dget String.eqb Ascii.eqb Bool.eqb bind]|reflexivity]
  | |- bind (Ok _) _ = _ => cbn [bind]
  | |- (if Nat.ltb _ _ then _ else _) = _ => destruct (Nat.ltb _ _); unfold emp_update
  end]); all_kept.
  Qed.
End Miss.

(** ** Loading *)
Lemma set_only {N} sch p (s : dict N) j keep : conforms sch s -> Forall (fun kk => kind_json (snd kk)) sch -> dget "n_dim" sch = Some (KDim p) ->
  dict_get s = Ok j -> map fst j = map fst s /\ exists nf, dict_set (only keep j) = Ok (only keep s, nf).
Proof.
  intros Hc Hj Hd E. injection E as <-. split; [now rewrite map_map|]. unfold dict_set.
  match goal with |- exists nf, bind (mapM ?f (only keep (map ?g s))) _ = _ => assert (M : mapM f (only keep (map g s)) = Ok (only keep s)) end.
  { clear Hd. revert Hj. induction Hc as [|[k kd] [k' v] sch s [Ek Hk] Hc IH]; intros Hj; auto.
    inversion Hj as [|? ? Hkj Hj']; subst. simpl in Ek, Hk, Hkj. subst k'. specialize (IH Hj').
    unfold only in *. cbn [map filter fst]. destruct (keep k); [|exact IH].
    cbn [mapM fst snd]. rewrite IH. clear IH.
    destruct kd, v as [n'|y|[v|m|t]]; simpl in Hk; try contradiction; cbn [bind]; auto; unfold tolist.
    - now rewrite np_array_A1.
    - rewrite (np_array_A2 _ _ _ Hk Hkj). reflexivity.
    - destruct Hk as [Hk1 Hk2], Hkj as [Hj1 Hj2]. rewrite (np_array_A3 _ _ _ _ Hk1 Hk2 Hj1 Hj2). reflexivity. }
  rewrite M. cbn [bind]. rewrite dget_only. destruct (keep "n_dim"); [|eauto].
  assert (D : dget "n_dim" s = Some (VInt p)).
  { clear M Hj. induction Hc as [|[k kd] [k' v] sch s [Ek Hk] Hc IH]; [discriminate|].
    cbn [fst snd] in *. subst k'. cbn [dget] in *. destruct (String.eqb "n_dim" k); auto.
    injection Hd as ->. destruct v; simpl in Hk; try contradiction. now subst. }
  rewrite D. eauto.
Qed.
Lemma detect {N} name P diff (init : P -> nat -> res (dict N)) update cov sch (ok : P -> Prop) :
  (forall Pm p rows o, diff Pm = false -> ok Pm -> 1 <= p -> rows_of_length p rows -> rows <> [] ->
     partial_fit (new (C := dict_class (N := N) name P diff init update cov) Pm) (In2 rows) = (o, Ok tt) ->
     exists s, o = mkInst (C := dict_class (N := N) name P diff init update cov) Pm (Some s) (Some p) None /\ conforms (sch Pm p) s) ->
  (forall Pm p, ok Pm -> 1 <= p -> Forall (fun kk => kind_json (snd kk)) (sch Pm p)) ->
  (forall Pm p, dget "n_dim" (sch Pm p) = Some (KDim p)) ->
  (forall Pm Pm' p keep s x, 1 <= p -> ok Pm' -> conforms (sch Pm p) s -> incomplete keep s -> update Pm' (only keep s) x = Err KeyError) ->
  detected_later (dict_class (N := N) name P diff init update cov) ok.
Proof.
  intros H1 H2 H3 H4 Pm p rows o j keep o' x HD HokP Hp Hr Hne E G I HD' Hok.
  destruct (H1 Pm p rows o HD HokP Hp Hr Hne E) as (s & -> & W). unfold get_state in G. cbn [i_state c_get dict_class] in G.
  assert (Gj : dict_get s = Ok j) by (destruct (dict_get s); [cbn [bind] in G; congruence|discriminate]).
  destruct (set_only (sch Pm p) p s j keep W (H2 Pm p HokP Hp) (H3 Pm p) Gj) as (Ek & nf & ES).
  exists (mkInst (C := dict_class (N := N) name P diff init update cov) (i_params o') (Some (only keep s)) nf (i_prev o')).
  split. { unfold set_state. cbn [c_set dict_class]. rewrite ES. reflexivity. }
  assert (I' : incomplete keep s) by (unfold incomplete in *; now rewrite <- Ek).
  split.
  - unfold partial_fit. cbn [as_rows fit_rows]. unfold fit_row, absorb. cbn [i_params i_state i_nfeat i_prev c_diff c_update dict_class]. cbn [c_diff dict_class] in HD'. rewrite HD'.
    rewrite (H4 Pm (i_params o') p keep s x Hp Hok W I'). reflexivity.
  - intros Hk. assert (Q : dict_nsamples (only keep s) = Err KeyError) by (unfold dict_nsamples; rewrite getI_only, Hk; reflexivity).
    assert (F : fitted_state (mkInst (C := dict_class (N := N) name P diff init update cov) (i_params o') (Some (only keep s)) nf (i_prev o')) = Err NotFittedError).
    { unfold fitted_state. cbn [i_state c_nsamples dict_class]. rewrite Q. reflexivity. }
    unfold location_, covariance_. rewrite F. split; [reflexivity|]. split; [reflexivity|]. exact Q.
Qed.
Lemma by_shape {N} name P diff (init : P -> nat -> res (dict N)) update cov sch :
  behaved_by (dict_class (N := N) name P diff init update cov) (fun p s => conforms (sch p) s) eq ->
  forall (Pm : P) p rows o, diff Pm = false -> 1 <= p -> rows_of_length p rows -> rows <> [] ->
     partial_fit (new (C := dict_class (N := N) name P diff init update cov) Pm) (In2 rows) = (o, Ok tt) ->
     exists s, o = mkInst (C := dict_class (N := N) name P diff init update cov) Pm (Some s) (Some p) None /\ conforms (sch p) s.
Proof. intros HB Pm p rows o HD Hp Hr Hne E. destruct (fitted_shape _ _ HB Pm p rows o Hp HD Hr Hne E) as (s & -> & W & _). eauto. Qed.
Lemma detect_by {N} name P diff (init : P -> nat -> res (dict N)) update cov sch (ok : P -> Prop) :
  behaved_by (dict_class (N := N) name P diff init update cov) (fun p s => conforms (sch p) s) eq ->
  (forall p, 1 <= p -> Forall (fun kk => kind_json (snd kk)) (sch p)) ->
  (forall p, dget "n_dim" (sch p) = Some (KDim p)) ->
  (forall Pm p keep s x, 1 <= p -> ok Pm -> conforms (sch p) s -> incomplete keep s -> update Pm (only keep s) x = Err KeyError) ->
  detected_later (dict_class (N := N) name P diff init update cov) ok.
Proof.
  intros HB H1 H2 H3. apply (detect name P diff init update cov (fun _ => sch)).
  - intros Pm p rows o HD _. exact (by_shape name P diff init update cov sch HB Pm p rows o HD).
  - intros _ p _. exact (H1 p).
  - intros _. exact H2.
  - intros _. exact H3.
Qed.
Ltac kj := intros; repeat constructor; simpl; auto.

(** ** C93 *)
Theorem C93_detected_at_the_next_row :
  forall (N : Num) (L : LinAlg N), la_shapes L -> forall fuel k, In k (registry L fuel) ->
  ~ In (c_name (rg_class k)) ["BlockCovariance"; "FactorCovariance"; "SchurLedoitWolfCovariance"] ->
  detected_later (rg_class k) (fun _ => True).
Proof.
  intros N L HL fuel k Hk. unfold registry in Hk. cbn [In] in Hk.
  repeat (destruct Hk as [<-|Hk]; [cbn [rg_class]|]); try contradiction; intros Hn;
  try (exfalso; apply Hn; cbn [c_name Block SchurLW Factor dict_class In]; tauto); clear Hn.
  - refine (detect_by _ _ _ _ _ _ sch_emp _ Empirical_by _ _ _); [kj|reflexivity|intros; eapply miss_emp; eassumption].
  - refine (detect_by _ _ _ _ _ _ sch_diag _ Diagonal_by _ _ _); [kj|reflexivity|intros; eapply miss_diag; eassumption].
  - refine (detect_by _ _ _ _ _ _ sch_ewa _ (ewa_like_by "EwaCovariance" EwaP ewa_diff ewa_r _ _) _ _ _); [intros Pm p s Hp Hs; unfold sch_ewa, sch_emp in Hs; cbn [app] in Hs; open_conf Hs; simpl; assumption|kj|reflexivity|intros; eapply miss_ewa; eassumption].
  - refine (detect_by _ _ _ _ _ _ sch_ada _ (Adaptive_by L HL) _ _ _); [kj|reflexivity|intros; eapply miss_ada; eassumption].
  - refine (detect_by _ _ _ _ _ _ sch_lw _ LedoitWolf_by _ _ _); [kj|reflexivity|intros; eapply miss_lw; eassumption].
  - refine (detect_by _ _ _ _ _ _ sch_ewa _ (ewa_like_by "OASCovariance" EwaP ewa_diff ewa_r _ _) _ _ _); [intros; apply oas_cov_sh|kj|reflexivity|intros; eapply miss_ewa; eassumption].
  - refine (detect_by _ _ _ _ _ _ sch_ewa _ (ewa_like_by "ShrunkCovariance" ShrP shr_diff shr_r _ _) _ _ _); [intros; apply shr_cov_sh|kj|reflexivity|intros; eapply miss_ewa; eassumption].
  - refine (detect_by _ _ _ _ _ _ sch_ewa _ (ewa_like_by "SchurCovariance" SchP sch_diff sch_r _ _) _ _ _); [intros; now apply sch_cov_sh|kj|reflexivity|intros; eapply miss_ewa; eassumption].
  - refine (detect_by _ _ _ _ _ _ sch_ewa _ (ewa_like_by "SchurConditionalCovariance" BlkP blk_diff blk_r _ _) _ _ _); [intros; now apply sc_cov_sh|kj|reflexivity|intros; eapply miss_ewa; eassumption].
  - refine (detect_by _ _ _ _ _ _ sch_pm _ (PartialMoments_by L HL fuel) _ _ _); [kj|reflexivity|intros; eapply miss_pm; eassumption].
  - refine (detect_by _ _ _ _ _ _ sch_ewa _ (Huber_by L HL) _ _ _); [kj|reflexivity|intros; eapply miss_hub; eassumption].
  - refine (detect_by _ _ _ _ _ _ sch_tyl _ (Tyler_by L HL) _ _ _); [kj|reflexivity|intros; eapply miss_tyl; eassumption].
  - refine (detect_by _ _ _ _ _ _ sch_ewa _ (Geodesic_by L HL) _ _ _); [kj|reflexivity|intros; eapply miss_geo; eassumption].
  - apply (detect _ _ _ _ _ _ (fun _ => sch_dcc1)); [|kj|reflexivity|intros; eapply miss_dcc; eassumption].
    intros Pm p rows o HD _ Hp Hr Hne E.
    destruct (fitted_inv (C := DCC) Pm (fun s n => match n with 0 => conforms (sch_dcc0 p) s | _ => conforms (sch_dcc1 p) s end) p rows o HD Hr Hne) as (s & -> & W); [| |exact E|].
    + intros s Ei. cbn [c_init DCC dict_class] in Ei. unfold dcc_init in Ei. destruct (ewa_burn_n _); [|discriminate]. cbn [bind] in Ei. injection Ei as <-. unfold emp_init. conf_done.
    + intros s x s' n W Hx Eu. cbn [c_update DCC dict_class] in Eu.
      assert (W' : conforms (sch_dcc0 p) s \/ conforms (sch_dcc1 p) s) by (destruct n; auto).
      pose proof (dcc_update_sh (fun _ => True) p s x Hp W' Hx) as K. rewrite Eu in K. apply K.
    + exists s. split; [reflexivity|]. destruct rows; [congruence|exact W].
Qed.
Theorem C93_detected_schur_ledoit_wolf :
  forall (N : Num) (L : LinAlg N), la_shapes L -> detected_later (SchurLW L) (fun P => (1 <= blk_n_blocks P)%Z).
Proof.
  intros N L HL. refine (detect_by _ _ _ _ _ _ sch_slw _ (SchurLW_by L HL) _ _ _); [kj|reflexivity|intros; eapply miss_slw; eassumption].
Qed.
Theorem C93_detected_factor :
  forall (N : Num), detected_later (Factor (N := N)) (fun P => (1 <= fac_k P)%Z).
Proof.
  intros N. apply (detect _ _ _ _ _ _ (fun Pm p => sch_fac (Z.to_nat (Z.min (fac_k Pm) (Z.of_nat p))) p)); [|kj; lia|reflexivity|intros; eapply miss_fac; eassumption].
  intros P p rows o HD HP Hp Hr Hne E.
  destruct (fitted_inv (C := Factor) P (fun s _ => conforms (sch_fac (Z.to_nat (Z.min (fac_k P) (Z.of_nat p))) p) s) p rows o HD Hr Hne) as (s & -> & W); eauto.
  - intros s Ei. cbn [c_init Factor dict_class] in Ei. unfold fac_init in Ei. destruct (_ <? _)%Z; [discriminate|]. injection Ei as <-. conf_done.
  - intros s x s' n W Hx Eu. pose proof (fac_update_sh (fun _ => True) _ p s x Hp W Hx) as K. cbn [c_update Factor dict_class] in Eu. rewrite Eu in K. apply K.
Qed.
(** BlockCovariance reads every entry while loading *)
Lemma blk_incomplete {N} (j : jdict N) r keep : map fst j = ["n_dim"; "n_samples"; "r"; "n_burn"; "slices"; "block_means"; "block_covs"] ->
  blk_set j = Ok r -> incomplete keep j -> blk_set (only keep j) = Err KeyError.
Proof.
  intros Hk E I. unfold blk_set, jgetI, jgetN, jgetL in *. rewrite !dget_only.
  assert (Q : keep "n_dim" = true -> keep "n_samples" = true -> keep "r" = true -> keep "n_burn" = true -> keep "slices" = true -> keep "block_means" = true -> keep "block_covs" = true -> False).
  { intros. unfold incomplete in I. rewrite Hk in I. destruct I as (key & H7 & H8). cbn [In] in H7. repeat (destruct H7 as [H7|H7]; [subst key; congruence|]). exact H7. }
  destruct (keep "n_samples"); [|reflexivity].
  match goal with |- bind ?a _ = _ => destruct a eqn:E1; [|discriminate] end. cbn [bind] in *.
  destruct (keep "r"); [|reflexivity].
  match goal with |- bind ?a _ = _ => destruct a eqn:E2; [|discriminate] end. cbn [bind] in *.
  destruct (keep "n_burn"); [|reflexivity].
  match goal with |- bind ?a _ = _ => destruct a eqn:E3; [|discriminate] end. cbn [bind] in *.
  destruct (keep "slices"); [|reflexivity].
  match goal with |- bind ?a _ = _ => destruct a eqn:E4; [|discriminate] end. cbn [bind] in *.
  match goal with |- bind ?a _ = _ => destruct a eqn:E5; [|discriminate] end. cbn [bind] in *.
  destruct (keep "block_means"); [|reflexivity].
  match goal with |- bind ?a _ = _ => destruct a eqn:E6; [|discriminate] end. cbn [bind] in *.
  destruct (keep "block_covs"); [|reflexivity].
  match goal with |- bind ?a _ = _ => destruct a eqn:E7; [|discriminate] end. cbn [bind] in *.
  match goal with |- bind ?a _ = _ => destruct a eqn:E8; [|discriminate] end. cbn [bind] in *.
  destruct (keep "n_dim"); [|reflexivity]. exfalso. auto.
Qed.
Theorem C93_block_refuses_to_load :
  forall (N : Num) (L : LinAlg N) (P : BlkP) p rows (o : inst (Block L)) j keep (o' : inst (Block L)), blk_diff P = false -> 1 <= p -> rows_of_length p rows -> rows <> [] ->
    partial_fit (new (C := Block L) P) (In2 rows) = (o, Ok tt) -> get_state o = Ok (Some j) -> incomplete keep j ->
    set_state o' (Some (only keep j)) = Err KeyError.
Proof.
  intros N L P p rows o j keep o' HD Hp Hr Hne E G I.
  destruct (fitted_shape _ _ (Block_behaved_by L) P p rows o Hp HD Hr Hne E) as (s & -> & W & _).
  destruct (bh_round _ _ _ (Block_behaved_by L) p s Hp W) as (j' & s' & E1 & E2 & _).
  unfold get_state in G. cbn [i_state] in G. rewrite E1 in G. cbn [bind] in G. injection G as ->.
  unfold set_state. cbn [c_set Block] in *. rewrite (blk_incomplete j (s', Some p) keep); [reflexivity| |exact E2|exact I].
  cbn [c_get Block] in E1. unfold blk_get in E1. repeat match type of E1 with bind ?a _ = _ => destruct a; [|discriminate]; cbn [bind] in E1 end. now injection E1 as <-.
Qed.

(** ** The hypotheses are met: two rows, the "cov" entry lost *)
Example C93_met : forall (N : Num) (a b c d : N), exists o j,
  partial_fit (new (C := Empirical) (mkEmpP false)) (In2 [[a; b]; [c; d]]) = (o, Ok tt) /\ get_state o = Ok (Some j) /\
  incomplete (fun k => negb (String.eqb k "cov")) j /\ length (only (fun k => negb (String.eqb k "cov")) j) = 3.
Proof.
  intros. eexists _, _. split; [reflexivity|]. split; [reflexivity|]. split; [|reflexivity].
  exists "cov". split; [cbn; tauto|reflexivity].
Qed.
Example C93_met_block : forall L : LinAlg NumF, exists o j,
  partial_fit (new (C := Block L) (mkBlkP (N := NumF) (nlit 5 1) 2 false)) (In2 [[nlit 1 0; nlit 2 0]; [nlit 25 1; nlit 3 0]]) = (o, Ok tt) /\
  get_state o = Ok (Some j) /\ incomplete (fun k => negb (String.eqb k "slices")) j.
Proof.
  intros L. set (rows := [[nlit 1 0; nlit 2 0]; [nlit 25 1; nlit 3 0]]). set (P := mkBlkP _ _ _).
  assert (E : snd (partial_fit (new (C := Block L) P) (In2 rows)) = Ok tt) by (vm_compute; reflexivity).
  destruct (partial_fit (new (C := Block L) P) (In2 rows)) as [o r] eqn:E0. cbn [snd] in E. subst r.
  assert (Hr : rows_of_length 2 rows) by repeat constructor. assert (Hne : rows <> []) by discriminate.
  destruct (fitted_shape _ _ (Block_behaved_by L) P 2 rows o (le_S _ _ (le_n 1)) eq_refl Hr Hne E0) as (s & -> & W & _).
  destruct (bh_round _ _ _ (Block_behaved_by L) 2 s (le_S _ _ (le_n 1)) W) as (j & s' & E1 & _ & _).
  eexists _, j. split; [reflexivity|]. unfold get_state. cbn [i_state]. rewrite E1. split; [reflexivity|]. exists "slices". split; [|reflexivity].
  cbn [c_get Block] in E1. unfold blk_get in E1. repeat match type of E1 with bind ?a _ = _ => destruct a; [|discriminate]; cbn [bind] in E1 end. injection E1 as <-.
  cbn [map fst In]. tauto.
Qed.

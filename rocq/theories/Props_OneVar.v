(** * C08: observations of another length, completed

    [C08_scalar_is_broadcast]: a length-1 observation is the constant observation.
    [C08_one_variable]: what an estimator that has only seen one variable does with a longer row, class by class. *)
From Coq Require Import ZArith Bool String List Lia Arith.
From Verif Require Import Num NumFloat Numpy PyVal LinalgModel StateModel BaseModel Estimators RegistryModel Spec ListLemmas BaseProofs Shapes ClassShapes BlockShapes StreamProofs RegistryProofs Props_Stream.
Import ListNotations.
Local Open Scope string_scope.

(** ** What is in the state after rows of length p *)
Lemma fitted_inv {N} {C : EstClass N} (P : c_P C) (Inv : c_St C -> nat -> Prop) p rows o :
  c_diff C P = false -> rows_of_length p rows -> rows <> [] ->
  (forall s, c_init C P p = Ok s -> Inv s 0) ->
  (forall s x s' n, Inv s n -> length x = p -> c_update C P s x = Ok s' -> Inv s' (S n)) ->
  partial_fit (new P) (In2 rows) = (o, Ok tt) ->
  exists s, o = mkInst P (Some s) (Some p) None /\ Inv s (length rows).
Proof.
  intros HD Hr Hne H0 H1 E. unfold partial_fit in E. cbn [as_rows] in E.
  assert (K : forall rows n s o, rows_of_length p rows -> Inv s n -> fit_rows (C := C) (mkInst P (Some s) (Some p) None) rows = (o, Ok tt) ->
    exists s', o = mkInst P (Some s') (Some p) None /\ Inv s' (n + length rows)).
  { clear rows o E Hr Hne. intros rows. induction rows as [|x rows IH]; intros n s o Hr HI E.
    - cbn [fit_rows] in E. injection E as <-. exists s. rewrite Nat.add_0_r. auto.
    - cbn [fit_rows] in E. unfold fit_row, absorb in E. cbn [i_params i_state i_nfeat i_prev] in E. rewrite HD in E.
      pose proof (Forall_inv Hr) as Hx. pose proof (Forall_inv_tail Hr) as Hr'. destruct (c_update C P s x) as [s1|e] eqn:Eu; [|discriminate].
      destruct (IH (S n) s1 o Hr' (H1 s x s1 n HI Hx Eu) E) as (s' & E1 & E2). exists s'. split; [exact E1|]. cbn [length]. now rewrite Nat.add_succ_r. }
  destruct rows as [|x rows]; [congruence|]. pose proof (Forall_inv Hr) as Hx. pose proof (Forall_inv_tail Hr) as Hr'. cbv beta in Hx.
  cbn [fit_rows] in E. unfold fit_row, absorb, new in E. cbn [i_params i_state i_nfeat i_prev] in E. rewrite HD, Hx in E.
  destruct (c_init C P p) as [s0|e] eqn:Ei; [|discriminate]. destruct (c_update C P s0 x) as [s1|e] eqn:Eu; [|discriminate].
  destruct (K rows 1 s1 o Hr' (H1 s0 x s1 0 (H0 s0 eq_refl) Hx Eu) E) as (s' & E1 & E2). exists s'. split; [exact E1|exact E2].
Qed.
(** in particular the shape invariant, the sample count and the dimension *)
Lemma fitted_shape {N} {C : EstClass N} wf R (HB : behaved_by C wf R) (P : c_P C) p rows o :
  1 <= p -> c_diff C P = false -> rows_of_length p rows -> rows <> [] -> partial_fit (new P) (In2 rows) = (o, Ok tt) ->
  exists s, o = mkInst P (Some s) (Some p) None /\ wf p s /\ c_nsamples C s = Ok (length rows).
Proof.
  intros Hp HD Hr Hne E. apply (fitted_inv P (fun s n => wf p s /\ c_nsamples C s = Ok n) p rows o HD Hr Hne); [| |exact E].
  - intros s Ei. now apply (bh_init _ _ _ HB P).
  - intros s x s' n [W Hn] Hx Hu. destruct (bh_update _ _ _ HB _ _ _ _ _ Hp W Hx Hu) as [W' (m & E1 & E2)]. split; [exact W'|]. congruence.
Qed.

(** ** A length-1 observation *)
Lemma bc_rep {A B D} (f : A -> B -> D) c (v : list B) : bc f [c] v = bc f (repeat c (length v)) v.
Proof.
  assert (Z : forall l : list B, zipw f (repeat c (length l)) l = map (f c) l) by (intros l; induction l; simpl; congruence).
  unfold bc. rewrite repeat_length, Nat.eqb_refl, Z. destruct (Nat.eqb_spec (length [c]) (length v)) as [E|E]; [|reflexivity].
  destruct v as [|b [|? ?]]; try discriminate. reflexivity.
Qed.
Lemma bc_rep_r {A B D} (f : A -> B -> D) c (v : list A) : bc f v [c] = bc f v (repeat c (length v)).
Proof.
  assert (Z : forall l : list A, zipw f l (repeat c (length l)) = map (fun x => f x c) l) by (intros l; induction l; simpl; congruence).
  unfold bc. rewrite repeat_length, Nat.eqb_refl, Z. destruct (Nat.eqb_spec (length v) (length [c])) as [E|E]; [|destruct v as [|? [|? ?]]; try reflexivity; now contradict E].
  destruct v as [|b [|? ?]]; try discriminate. reflexivity.
Qed.
Lemma bc_len {A B D} (f : A -> B -> D) a b c : length a = length b -> bc f a b = Ok c -> length c = length b.
Proof. intros H E. rewrite bc_eqlen in E by auto. injection E as <-. now rewrite zipw_length. Qed.
Lemma map_rep {A B} (f : A -> B) c n : map f (repeat c n) = repeat (f c) n.
Proof. induction n; simpl; congruence. Qed.
Section Scalar.
  Context {N : Num} (L : LinAlg N).
  Lemma vsub_rep c (v : vec N) n : length v = n -> vsub [c] v = vsub (repeat c n) v.
  Proof. intros <-. apply bc_rep. Qed.
  Lemma vadd_scale_rep r c (v : vec N) n : length v = n -> vadd v (vscale r [c]) = vadd v (vscale r (repeat c n)).
  Proof. intros <-. unfold vadd, vscale. rewrite map_rep. apply bc_rep_r. Qed.
  Lemma emp_rep (s : dict N) c m n : getV "mean" s = Ok m -> length m = n -> emp_update s [c] = emp_update s (repeat c n).
  Proof.
    intros Hm Hl. unfold emp_update. rewrite Hm. destruct (getI "n_samples" s); [|reflexivity]. cbn [bind]. rewrite (vsub_rep c m n Hl).
    destruct (getM "cov" s); [|reflexivity]. destruct (getI "n_dim" s); [|reflexivity]. cbn [bind].
    destruct (vsub (repeat c n) m) as [d|] eqn:Ed; [|reflexivity]. cbn [bind].
    assert (Ld : length d = n) by (apply bc_len in Ed; rewrite ?repeat_length; congruence).
    destruct (vadd m (vdivs d (nofn (S a)))) as [mean|] eqn:Em; [|reflexivity]. cbn [bind].
    assert (Lm : length mean = n) by (apply bc_len in Em; unfold vdivs in *; rewrite ?map_length in *; congruence).
    now rewrite (vsub_rep c mean n Lm).
  Qed.
End Scalar.
Lemma registry_scalar {N} (L : LinAlg N) fuel k : In k (registry L fuel) -> c_name (rg_class k) <> "BlockCovariance" ->
  forall P s c v, c_mean (rg_class k) P s = Ok v -> c_update (rg_class k) P s [c] = c_update (rg_class k) P s (repeat c (length v)).
Proof.
  unfold registry. cbn [In]. intros H.
  repeat (destruct H as [<-|H]; [cbn [rg_class]|]); try contradiction; intros Hn P s c v Hv;
    try (exfalso; apply Hn; reflexivity);
    cbn [c_update c_mean Empirical Diagonal Block Ewa Adaptive LedoitWolf OAS Shrunk Schur SchurCond SchurLW
         PartialMoments Huber Tyler Geodesic DCC Factor dict_class] in *;
    unfold dict_mean in Hv;
    try exact (emp_rep s c v _ Hv eq_refl);
    unfold diag_update, ewa_update, ada_update, lw_update, slw_update, pm_update, hub_update, tyl_update,
      geo_update, dcc_update, fac_update;
    rewrite ?(emp_rep s c v _ Hv eq_refl), ?Hv; cbn [bind];
    rewrite ?(vsub_rep c v _ eq_refl);
    repeat first [reflexivity
      | match goal with |- context [vadd (vscale ?a v) (vscale ?r [c])] =>
          rewrite (vadd_scale_rep r c (vscale a v) (length v)) by apply map_length end
      | match goal with
        | |- bind ?m _ = bind ?m _ => destruct m; cbn [bind]
        | |- bind (bind ?m _) _ = bind (bind ?m _) _ => destruct m; cbn [bind]
        | |- (if ?b then _ else _) = _ => destruct b
        | |- bind (if ?b then _ else _) _ = _ => destruct b
        end].
Qed.
(** A length-1 observation is the observation that has this number in every coordinate. *)
Theorem C08_scalar_is_broadcast :
  forall (N : Num) (L : LinAlg N), la_shapes L -> forall fuel k, In k (registry L fuel) -> c_name (rg_class k) <> "BlockCovariance" ->
  forall P p rows o c, c_diff (rg_class k) P = false -> 1 <= p -> rows_of_length p rows -> rows <> [] ->
    partial_fit (new (C := rg_class k) P) (In2 rows) = (o, Ok tt) ->
    partial_fit o (In1 [c]) = partial_fit o (In1 (repeat c p)).
Proof.
  intros N L HL fuel k Hk Hn P p rows o c HD Hp Hr Hne E. destruct (registry_behaved L HL fuel k Hk) as (wf & R & HB).
  destruct (fitted_shape wf R HB P p rows o Hp HD Hr Hne E) as (s & -> & W & _). destruct (bh_mean _ _ _ HB P p s Hp W) as (v & Ev & <-).
  unfold partial_fit. cbn [as_rows fit_rows]. unfold fit_row, absorb. cbn [i_params i_state]. rewrite HD, (registry_scalar L fuel k Hk Hn P s c v Ev). reflexivity.
Qed.

(** ** One variable, then a longer row *)
(** [grows o]: a row of two or more numbers is accepted, counted, and location_ takes its length, while n_features_in_ stays 1. *)
Definition grows {N} {C : EstClass N} (o : inst C) : Prop :=
  forall x, 2 <= length x -> exists o' n m, partial_fit o (In1 x) = (o', Ok tt) /\ n_samples_ o = Ok n /\ n_samples_ o' = Ok (S n) /\
    i_nfeat o' = Some 1 /\ location_ o' = Ok m /\ length m = length x.
(** [refuses o]: such a row raises, and the estimator is exactly what it was. *)
Definition refuses {N} {C : EstClass N} (o : inst C) : Prop :=
  forall x, 2 <= length x -> exists e, partial_fit o (In1 x) = (o, Err e).

Definition good_step {N} (s : dict N) (x : vec N) (r : res (dict N)) : Prop :=
  exists s' n m, r = Ok s' /\ getI "n_samples" s = Ok n /\ getI "n_samples" s' = Ok (S n) /\ getV "mean" s' = Ok m /\ length m = length x.
Definition bad_step {A} (r : res A) : Prop := exists e, r = Err e.
Lemma step_grows {N} name P diff init update cov (Pm : P) (s : dict N) : diff Pm = false ->
  (forall x, 2 <= length x -> good_step s x (update Pm s x)) ->
  grows (C := dict_class (N := N) name P diff init update cov) (mkInst (C := dict_class (N := N) name P diff init update cov) Pm (Some s) (Some 1) None).
Proof.
  intros HD H x Hx. destruct (H x Hx) as (s' & n & m & E1 & E2 & E3 & E4 & E5).
  assert (FS : forall k, 1 <= k -> forall t : dict N, dict_nsamples t = Ok k -> fitted_state (mkInst (C := dict_class (N := N) name P diff init update cov) Pm (Some t) (Some 1) None) = Ok t).
  { intros k Hk t Et. unfold fitted_state. cbn [i_state c_nsamples dict_class get_or]. rewrite Et. cbn [get_or bind]. destruct k; [lia|]. reflexivity. }
  exists (mkInst (C := dict_class (N := N) name P diff init update cov) Pm (Some s') (Some 1) None), n, m.
  unfold partial_fit. cbn [as_rows fit_rows]. unfold fit_row, absorb. cbn [i_params i_state i_nfeat i_prev c_diff c_update dict_class].
  rewrite HD, E1. split; [reflexivity|]. split; [exact E2|]. split; [exact E3|]. split; [reflexivity|]. split; [|exact E5].
  unfold location_. rewrite (FS (S n) ltac:(lia) s' E3). exact E4.
Qed.
Lemma step_refuses {N} name P diff init update cov (Pm : P) (s : dict N) : diff Pm = false ->
  (forall x, 2 <= length x -> bad_step (update Pm s x)) ->
  refuses (C := dict_class (N := N) name P diff init update cov) (mkInst (C := dict_class (N := N) name P diff init update cov) Pm (Some s) (Some 1) None).
Proof.
  intros HD H x Hx. destruct (H x Hx) as (e & E). exists e. unfold partial_fit. cbn [as_rows fit_rows]. unfold fit_row, absorb.
  cbn [i_params i_state i_nfeat i_prev c_diff c_update dict_class]. now rewrite HD, E.
Qed.

(** broadcasting one against q *)
Definition sure {A} (Q : A -> Prop) (m : res A) : Prop := holds (fun _ => False) Q m.
Lemma sure_ok {A} (Q : A -> Prop) m : sure Q m -> exists a, m = Ok a /\ Q a.
Proof. destruct m; simpl; [eauto|contradiction]. Qed.
Lemma bc_1r {A B D} q (f : A -> B -> D) a b : length a = q -> length b = 1 -> sure (fun c => length c = q) (bc f a b).
Proof.
  intros Ha Hb. destruct b as [|y [|? ?]]; try discriminate. unfold bc. destruct (Nat.eqb_spec (length a) (length [y])) as [E|E].
  - unfold sure, holds. rewrite zipw_length; congruence.
  - destruct a as [|z [|? ?]]; [exact Ha|now contradict E|]. simpl in *. now rewrite map_length.
Qed.
Lemma bc_1l {A B D} q (f : A -> B -> D) a b : length a = 1 -> length b = q -> sure (fun c => length c = q) (bc f a b).
Proof.
  intros Ha Hb. destruct a as [|y [|? ?]]; try discriminate. unfold bc. destruct (Nat.eqb_spec (length [y]) (length b)) as [E|E].
  - unfold sure, holds. rewrite zipw_length; congruence.
  - simpl. now rewrite map_length.
Qed.
Lemma mapM_id_sure {A} (Q : A -> Prop) (l : list (res A)) : (forall r, In r l -> sure Q r) -> sure (fun l' => length l' = length l /\ Forall Q l') (mapM (fun r => r) l).
Proof.
  induction l as [|r l IH]; intros H; [split; auto|]. cbn [mapM]. destruct (sure_ok _ _ (H r (or_introl eq_refl))) as (a & -> & Ha). cbn [bind].
  destruct (sure_ok _ _ (IH (fun r' Hr => H r' (or_intror Hr)))) as (l' & -> & E1 & E2). simpl. split; [congruence|auto].
Qed.
Lemma bc2_1l {A B D} q (f : A -> B -> D) a b : is_mat 1 1 a -> is_mat q q b -> sure (is_mat q q) (bc2 f a b).
Proof.
  intros [Ha1 Ha2] [Hb1 Hb2]. destruct a as [|ra [|? ?]]; try discriminate. apply Forall_inv in Ha2. unfold bc2.
  assert (K : exists l, bc (bc f) [ra] b = Ok l /\ length l = q /\ forall r, In r l -> exists rb, In rb b /\ r = bc f ra rb).
  { unfold bc at 1. destruct (Nat.eqb_spec (length [ra]) (length b)) as [E|E].
    - destruct b as [|rb [|? ?]]; try discriminate. simpl in *. subst q. eexists. split; [reflexivity|]. split; [reflexivity|]. intros r [<-|[]]. eauto.
    - eexists. split; [reflexivity|]. split; [now rewrite map_length|]. intros r Hr. apply in_map_iff in Hr. destruct Hr as (rb & <- & H). eauto. }
  destruct K as (l & -> & El & Hl). cbn [bind]. destruct (sure_ok _ _ (mapM_id_sure (fun v => length v = q) l ltac:(intros r Hr; destruct (Hl r Hr) as (rb & Hrb & ->); apply (bc_1l q); [exact Ha2|rewrite Forall_forall in Hb2; auto]))) as (m & -> & E1 & E2).
  split; [congruence|exact E2].
Qed.
Lemma bc2_1r {A B D} q (f : A -> B -> D) a b : is_mat q q a -> is_mat 1 1 b -> sure (is_mat q q) (bc2 f a b).
Proof.
  intros [Ha1 Ha2] [Hb1 Hb2]. destruct b as [|rb [|? ?]]; try discriminate. apply Forall_inv in Hb2. unfold bc2.
  assert (K : exists l, bc (bc f) a [rb] = Ok l /\ length l = q /\ forall r, In r l -> exists ra, In ra a /\ r = bc f ra rb).
  { unfold bc at 1. destruct (Nat.eqb_spec (length a) (length [rb])) as [E|E].
    - destruct a as [|ra [|? ?]]; try discriminate. simpl in *. subst q. eexists. split; [reflexivity|]. split; [reflexivity|]. intros r [<-|[]]. eauto.
    - destruct a as [|r1 [|r2 a]]; [| now contradict E |].
      + eexists. split; [reflexivity|]. split; [exact Ha1|]. intros r [].
      + eexists. split; [reflexivity|]. split; [simpl in *; now rewrite map_length|]. intros r Hr. apply (in_map_iff (fun x => bc f x rb)) in Hr. destruct Hr as (ra & <- & H). eauto. }
  destruct K as (l & -> & El & Hl). cbn [bind]. destruct (sure_ok _ _ (mapM_id_sure (fun v => length v = q) l ltac:(intros r Hr; destruct (Hl r Hr) as (ra & Hra & ->); apply (bc_1r q); [rewrite Forall_forall in Ha2; auto|exact Hb2]))) as (m & -> & E1 & E2).
  split; [congruence|exact E2].
Qed.

(** ** The updates *)
Lemma sure_bind {A B} (Q : A -> Prop) (R : B -> Prop) m f : sure Q m -> (forall a, Q a -> sure R (f a)) -> sure R (bind m f).
Proof. intros H1 H2. destruct (sure_ok _ _ H1) as (a & -> & Ha). now apply H2. Qed.
Lemma bad_bind {A B} (m : res A) (f : A -> res B) : (forall a, m = Ok a -> bad_step (f a)) -> bad_step (bind m f).
Proof. intros H. destruct m as [a|e]; [apply (H a eq_refl)|now exists e]. Qed.
Lemma bc_qq {A B D} q (f : A -> B -> D) a b : length a = q -> length b = q -> sure (fun c => length c = q) (bc f a b).
Proof. intros Ha Hb. rewrite bc_eqlen by congruence. simpl. rewrite zipw_length; congruence. Qed.
Lemma bc2_qq {N : Num} q (f : N -> N -> N) (a b : mat N) : is_mat q q a -> is_mat q q b -> sure (is_mat q q) (bc2 f a b).
Proof. intros. now apply bc2_sh. Qed.
Ltac gr_one q :=
  first [ apply (bc_qq q); [sh_side|sh_side] | apply (bc_1r q); [sh_side|sh_side] | apply (bc_1l q); [sh_side|sh_side]
        | apply (bc2_qq q); [sh_side|sh_side] | apply (bc2_1r q); [sh_side|sh_side] | apply (bc2_1l q); [sh_side|sh_side] ].
Ltac gr_step q := eapply sure_bind; [gr_one q|]; let v := fresh "w" in let H := fresh "Hw" in intros v H; cbv beta in H.
Ltac gr_prep := unfold vsub, vadd, vmul, vdiv, madd, msub, mmul, mdiv.
Ltac open_sch H := unfold sch_slw, sch_lw, sch_ada, sch_ewa, sch_diag, sch_emp, sch_pm, sch_tyl, sch_dcc0, sch_dcc1, sch_fac in H; cbn [app] in H; open_conf H.
Section Up.
  Context {N : Num} (L : LinAlg N) (HL : la_shapes L).
  Lemma sure_good (s : dict N) x r : sure (fun s' => exists n m, getI "n_samples" s = Ok n /\ getI "n_samples" s' = Ok (S n) /\ getV "mean" s' = Ok m /\ length m = length x) r -> good_step s x r.
  Proof. intros H. destruct (sure_ok _ _ H) as (s' & -> & n & m & H'). exists s', n, m. tauto. Qed.
  Ltac gr_end := simpl; eexists _, _; split; [reflexivity|]; split; [reflexivity|]; split; [reflexivity|]; sh_side.
  Lemma emp_grow (s : dict N) x n m c : getI "n_samples" s = Ok n -> getV "mean" s = Ok m -> getM "cov" s = Ok c -> getI "n_dim" s = Ok 1 -> length m = 1 -> is_mat 1 1 c ->
    sure (fun s' => exists m' c', length m' = length x /\ s' = [("n_dim", VInt 1); ("n_samples", VInt (S n)); ("mean", VArr (A1 m')); ("cov", VArr (A2 c'))]) (emp_update s x).
  Proof.
    intros H1 H2 H3 H4 Hm Hc. remember (length x) as q eqn:Hx. symmetry in Hx. unfold emp_update. rewrite H1, H2, H3, H4. cbn [bind]. gr_prep. repeat gr_step q.
    simpl. eexists _, _. split; [|reflexivity]. assumption.
  Qed.
  Ltac emp_gr := eapply sure_bind; [eapply emp_grow; first [reflexivity|eassumption]|]; cbv beta; intros ? (? & ? & ? & ->); cbn [bind]; gr_end.
  Lemma up_emp (s : dict N) x : conforms (sch_emp 1) s -> good_step s x (emp_update s x).
  Proof.
    intros H. open_sch H. apply sure_good. remember (length x) as q eqn:Hx. symmetry in Hx. unfold emp_update. red_get. gr_prep. repeat gr_step q. gr_end.
  Qed.
  Lemma up_ewa (s : dict N) x : conforms (sch_ewa 1) s -> good_step s x (ewa_update s x).
  Proof.
    intros H. open_sch H. apply sure_good. remember (length x) as q eqn:Hx. symmetry in Hx. unfold ewa_update. red_get. destruct (Nat.ltb _ _).
    - rewrite <- Hx. emp_gr.
    - gr_prep. repeat gr_step q. gr_end.
  Qed.
  Lemma up_diag (s : dict N) x : conforms (sch_diag 1) s -> good_step s x (diag_update s x).
  Proof.
    intros H. open_sch H. apply sure_good. remember (length x) as q eqn:Hx. symmetry in Hx. unfold diag_update. red_get. gr_prep. repeat gr_step q.
    eapply sure_bind with (Q := fun mv => length (fst mv) = q).
    - destruct (Nat.leb _ _); repeat gr_step q; assumption.
    - intros [mn vr] Hq. cbn [fst] in Hq. gr_end.
  Qed.
  Lemma up_lw (s : dict N) x : conforms (sch_lw 1) s -> good_step s x (lw_update s x).
  Proof.
    intros H. open_sch H. apply sure_good. remember (length x) as q eqn:Hx. symmetry in Hx. unfold lw_update. red_get. destruct (Nat.ltb _ _).
    - rewrite <- Hx. emp_gr.
    - gr_prep. repeat gr_step q. gr_end.
  Qed.
  Lemma up_dcc (s : dict N) x : conforms (sch_dcc0 1) s \/ conforms (sch_dcc1 1) s -> good_step s x (dcc_update s x).
  Proof.
    intros [H|H]; open_sch H; apply sure_good; remember (length x) as q eqn:Hx; symmetry in Hx; unfold dcc_update; red_get; gr_prep; repeat gr_step q;
    (eapply sure_bind with (Q := fun mv => length (fst mv) = q /\ length (snd mv) = q);
    [destruct (Nat.leb _ _); repeat gr_step q; split; assumption|]);
    intros [mn vr] [Hq1 Hq2]; cbn [fst snd] in *; repeat gr_step q;
    (eapply sure_bind with (Q := is_mat q q); [destruct (Nat.leb _ _); repeat gr_step q; gr_one q|]);
    intros Q1 HQ1; gr_end.
  Qed.
  (** the classes with a burn-in of [n_burn] rows *)
  Definition before (s : dict N) : Prop := exists n nb, getI "n_samples" s = Ok n /\ getI "n_burn" s = Ok nb /\ n < nb.
  Definition past (s : dict N) : Prop := exists n nb, getI "n_samples" s = Ok n /\ getI "n_burn" s = Ok nb /\ nb <= n.
  Ltac branch H := let n := fresh "n" in let nb := fresh "nb" in let E1 := fresh in let E2 := fresh in let E3 := fresh "Hlt" in
    destruct H as (n & nb & E1 & E2 & E3); cbv in E1, E2; injection E1 as <-; injection E2 as <-;
    first [apply Nat.ltb_lt in E3 | apply Nat.ltb_ge in E3]; rewrite E3.
  Lemma up_hub P (s : dict N) x : conforms (sch_ewa 1) s -> before s -> good_step s x (hub_update L P s x).
  Proof. intros H B. open_sch H. apply sure_good. unfold hub_update. red_get. branch B. emp_gr. Qed.
  Lemma up_geo (s : dict N) x : conforms (sch_ewa 1) s -> before s -> good_step s x (geo_update L s x).
  Proof. intros H B. open_sch H. apply sure_good. unfold geo_update. red_get. branch B. emp_gr. Qed.
  Lemma up_ada (s : dict N) x : conforms (sch_ada 1) s -> before s -> good_step s x (ada_update L s x).
  Proof. intros H B. open_sch H. apply sure_good. unfold ada_update. red_get. branch B. emp_gr. Qed.
  Lemma up_slw P (s : dict N) x : conforms (sch_slw 1) s -> before s -> good_step s x (slw_update P s x).
  Proof. intros H B. open_sch H. apply sure_good. unfold slw_update. red_get. branch B. emp_gr. Qed.

  Lemma vecmat_bad (x : vec N) a : 2 <= length x -> is_mat 1 1 a -> bad_step (vecmat x a).
  Proof.
    intros Hx Ha. unfold vecmat. rewrite (nrows_sh 1 1 a Ha). destruct (Nat.eqb_spec (length x) 1) as [E|E]; [lia|]. now exists ValueError.
  Qed.
  Lemma bc_1r_inv {A B D} (f : A -> B -> D) a b c : length b = 1 -> bc f a b = Ok c -> length c = length a.
  Proof. intros Hb E. pose proof (bc_1r (length a) f a b eq_refl Hb) as H. rewrite E in H. exact H. Qed.
  Lemma try_invert_11 (a b : mat N) : is_mat 1 1 a -> try_invert L a = Ok b -> is_mat 1 1 b.
  Proof. intros Ha E. pose proof (try_invert_sh L HL (fun _ => True) I 1 a Ha (le_n 1)) as H. rewrite E in H. exact H. Qed.
  Ltac bad_vm := 
    match goal with |- bad_step (bind (vecmat _ _) _) => let E := fresh in let W := fresh in intros; 
      match goal with |- bad_step (bind (vecmat ?v ?a) ?f) => destruct (vecmat_bad v a) as (e & W); [| |rewrite W; now exists e] end end.
  Lemma no_hub P (s : dict N) x : conforms (sch_ewa 1) s -> past s -> 2 <= length x -> bad_step (hub_update L P s x).
  Proof.
    intros H B Hx. open_sch H. unfold hub_update. red_get. branch B. apply bad_bind. intros d Ed. apply bc_1r_inv in Ed; [|assumption].
    apply bad_bind. intros iv Eiv. apply try_invert_11 in Eiv; [|assumption]. bad_vm; [congruence|assumption].
  Qed.
  Lemma no_ada (s : dict N) x : conforms (sch_ada 1) s -> past s -> 2 <= length x -> bad_step (ada_update L s x).
  Proof.
    intros H B Hx. open_sch H. unfold ada_update. red_get. branch B. apply bad_bind. intros d Ed. apply bc_1r_inv in Ed; [|assumption].
    apply bad_bind. intros iv Eiv. apply try_invert_11 in Eiv; [|assumption]. bad_vm; [congruence|assumption].
  Qed.
  Lemma no_tyl (s : dict N) x : conforms (sch_tyl 1) s -> 2 <= length x -> bad_step (tyl_update L s x).
  Proof.
    intros H Hx. open_sch H. unfold tyl_update. red_get. apply bad_bind. intros d Ed. apply bad_bind. intros [lr mn] _.
    apply bad_bind. intros d' Ed'. apply bc_1r_inv in Ed'; [|assumption]. apply bad_bind. intros iv Eiv. apply try_invert_11 in Eiv; [|assumption]. bad_vm; [congruence|assumption].
  Qed.
  Lemma geo_mismatch q (a b : mat N) g : 2 <= q -> is_mat 1 1 a -> is_mat q q b -> bad_step (geodesic_step L a b g).
  Proof.
    intros Hq Ha Hb. unfold geodesic_step.
    assert (I : forall A (Q : A -> Prop) m y, holds (fun _ => True) Q m -> m = Ok y -> Q y) by (intros A Q m y K E; rewrite E in K; exact K).
    apply bad_bind. intros sp E. apply (I _ _ _ _ (make_pos_def_sh L HL (fun _ => True) Logic.I 1 a Ha (le_n 1))) in E. rename E into Hsp.
    apply bad_bind. intros ep E. apply (I _ _ _ _ (make_pos_def_sh L HL (fun _ => True) Logic.I q b Hb ltac:(lia))) in E. rename E into Hep.
    apply bad_bind. intros [l V] E. apply (I _ _ _ _ (eigh_sh L HL (fun _ => True) Logic.I 1 sp Hsp)) in E. destruct E as [Hl HV]. cbn [fst snd] in Hl, HV.
    apply bad_bind. intros VS E. apply bad_bind. intros ss Ess.
    apply bad_bind. intros VI EI. apply (I _ _ _ _ (rows_vmul_sh (fun _ => True) 1 1 V (map (fun l0 => ndiv n1 (nsqrt l0)) (map (fun l0 => np_clip_lo l0 EPS) l)) HV ltac:(rewrite !map_length; exact Hl))) in EI.
    apply bad_bind. intros si Esi. apply (I _ _ _ _ (matmul_sh (fun _ => True) 1 1 1 VI (transpose V) EI (transpose_sh 1 1 V HV (le_n 1)) (le_n 1) (le_n 1))) in Esi.
    apply bad_bind. intros m1 E1. exfalso. unfold matmul in E1. rewrite (ncols_sh 1 1 si Esi (le_n 1)), (nrows_sh q q ep Hep) in E1.
    destruct (Nat.eqb_spec 1 q) as [K|K]; [lia|discriminate].
  Qed.
  Lemma no_geo (s : dict N) x : conforms (sch_ewa 1) s -> past s -> 2 <= length x -> bad_step (geo_update L s x).
  Proof.
    intros H B Hx. open_sch H. unfold geo_update. red_get. branch B. apply bad_bind. intros d Ed. apply bc_1r_inv in Ed; [|assumption].
    apply bad_bind. intros mn _. match goal with |- bad_step (bind (geodesic_step L ?a ?b ?r) _) => destruct (geo_mismatch (length x) a b r Hx ltac:(assumption) ltac:(sh_side)) as (e & ->) end. now exists e.
  Qed.
  Lemma masked_shape_bad (x : vec N) (d : mat N) : 2 <= length x -> is_mat (length x) (length x) d -> check_shape 1 d = Err IndexError.
  Proof. intros Hx Hd. unfold check_shape. rewrite (nrows_sh _ _ d Hd). destruct (Nat.eqb_spec (length x) 1) as [E|E]; [lia|reflexivity]. Qed.
  Lemma no_slw P (s : dict N) x : conforms (sch_slw 1) s -> past s -> 2 <= length x -> bad_step (slw_update P s x).
  Proof.
    intros H B Hx. open_sch H. unfold slw_update. red_get. branch B. apply bad_bind. intros bid _. apply bad_bind. intros d Ed. apply bc_1r_inv in Ed; [|assumption].
    apply bad_bind. intros dd Edd. assert (Hdd : is_mat (length x) (length x) dd).
    { match type of Edd with msub _ ?c = _ => pose proof (bc2_1r (length x) nsub (outer d d) c ltac:(sh_side) ltac:(assumption)) as K end. unfold msub in Edd. rewrite Edd in K. exact K. }
    rewrite (masked_shape_bad x); [|exact Hx|sh_side]. now exists IndexError.
  Qed.
  Lemma zipM_bad {A B D} (f : A -> B -> res D) a b al bl : bad_step (f a b) -> bad_step (zipM f (a :: al) (b :: bl)).
  Proof. intros (e & E). cbn [zipM]. rewrite E. now exists e. Qed.
  Lemma slot_bad q (old new : mat N) : 2 <= q -> is_mat 1 1 old -> is_mat q q new -> bad_step (slot_assign old new).
  Proof.
    intros Hq Ho Hn. unfold slot_assign. rewrite (nrows_sh _ _ _ Ho), (nrows_sh _ _ _ Hn). destruct (Nat.eqb_spec q 1) as [E|E]; [lia|]. now exists ValueError.
  Qed.
  Lemma no_pm (s : dict N) x : conforms (sch_pm 1) s -> 2 <= length x -> bad_step (pm_update s x).
  Proof.
    intros H Hx. open_sch H. unfold pm_update. red_get. apply bad_bind. intros dm _. apply bad_bind. intros mn _. apply bad_bind. intros d Ed. apply bc_1r_inv in Ed; [|assumption].
    match goal with H : length ?t = 4 /\ Forall _ ?t |- _ => destruct H as [Hn Hf]; destruct t as [|q0 t]; [discriminate|] end. pose proof (Forall_inv Hf) as Hq0.
    match goal with |- bad_step (bind ?m _) => enough (B : bad_step m) by (destruct B as (e & ->); now exists e) end.
    unfold QUADRANTS. apply zipM_bad. cbn [fst snd]. remember (length x) as q eqn:Hq.
    assert (Hpm : forall sg, length (pm_leg sg d) = q) by (intros sg; unfold pm_leg; now rewrite map_length).
    match goal with |- bad_step (bind ?m _) => assert (B : sure (is_mat q q) m) end.
    { destruct (Nat.leb _ _); gr_prep; repeat (eapply sure_bind; [first [apply (bc2_1r q); [apply outer_sh; apply Hpm|assumption]|gr_one q]|]; intros ? ?; cbv beta in *); first [apply (bc2_1l q); [sh_side|try (apply mmap_sh); try (apply outer_sh; apply Hpm); assumption]|idtac]. }
    destruct (sure_ok _ _ B) as (nw & -> & Hnw). cbn [bind]. now apply (slot_bad q).
  Qed.
  (** FactorCovariance *)
  Lemma cc_bad lr (u : vec N) V : 2 <= length u -> is_mat 1 1 V -> bad_step (ccipca lr u V).
  Proof.
    intros Hu [H1 H2]. destruct V as [|v [|? ?]]; try discriminate. pose proof (Forall_inv H2) as Hv. cbv beta in Hv. cbn [ccipca]. destruct (nltb _ _).
    - unfold row_assign. destruct u as [|a [|b u]]; cbn [length] in *; try lia. rewrite Hv. now exists ValueError.
    - apply bad_bind. intros pr E. exfalso. unfold vdot in E. unfold vdivs in E. rewrite map_length, Hv in E. destruct (Nat.eqb_spec (length u) 1); [lia|discriminate].
  Qed.
  Lemma no_fac (s : dict N) x : conforms (sch_fac 1 1) s -> 2 <= length x -> bad_step (fac_update s x).
  Proof.
    intros H Hx. open_sch H. unfold fac_update. red_get. apply bad_bind. intros d Ed. apply bc_1r_inv in Ed; [|assumption]. apply bad_bind. intros sq _. apply bad_bind. intros [[lr mn] vr] _.
    match goal with |- bad_step (bind (ccipca lr d ?V) _) => destruct (cc_bad lr d V) as (e & ->); [congruence|assumption|] end. now exists e.
  Qed.
  Lemma up_fac (s : dict N) x : conforms (sch_fac 0 1) s -> good_step s x (fac_update s x).
  Proof.
    intros H. open_sch H. apply sure_good. remember (length x) as q eqn:Hx. symmetry in Hx. unfold fac_update. red_get. gr_prep. repeat gr_step q.
    eapply sure_bind with (Q := fun mv => length (snd (fst mv)) = q).
    - destruct (Nat.leb _ _); repeat gr_step q; assumption.
    - intros [[lr mn] vr] Hq. cbn [fst snd] in Hq. match goal with H : is_mat 0 1 ?V |- _ => destruct H as [H0 _]; destruct V; [|discriminate] end. cbn [ccipca bind]. gr_end.
  Qed.
End Up.

(** ** The theorems *)
Lemma ewa_like_grows {N : Num} name P diff (rr : P -> N) cov (Pm : P) rows o : diff Pm = false -> rows_of_length 1 rows -> rows <> [] ->
  partial_fit (new (C := dict_class (N := N) name P diff (fun p n => ewa_init n (rr p)) (fun _ => ewa_update) cov) Pm) (In2 rows) = (o, Ok tt) -> grows o.
Proof.
  intros HD Hr Hne E.
  destruct (fitted_inv (C := dict_class (N := N) name P diff (fun p n => ewa_init n (rr p)) (fun _ => ewa_update) cov) Pm (fun s _ => conforms (sch_ewa 1) s) 1 rows o HD Hr Hne) as (s & -> & W).
  - intros s Ei. pose proof (ewa_init_sh 1 (rr Pm) (le_n 1)) as K. cbn [c_init dict_class] in Ei. rewrite Ei in K. apply K.
  - intros s x s' n W Hx Eu. pose proof (ewa_update_sh (fun _ => True) 1 s x (le_n 1) W Hx) as K. cbn [c_update dict_class] in Eu. rewrite Eu in K. apply K.
  - exact E.
  - apply step_grows; [exact HD|]. intros x _. now apply up_ewa.
Qed.
(** Nine classes whose every state array broadcasts: a longer row is accepted. *)
Definition always_broadcast : list string :=
  ["EmpiricalCovariance"; "EwaCovariance"; "DiagonalCovariance"; "LedoitWolfCovariance"; "OASCovariance"; "ShrunkCovariance"; "SchurCovariance"; "SchurConditionalCovariance"; "DCCCovariance"].
Theorem C08_one_variable_grows :
  forall (N : Num) (L : LinAlg N), la_shapes L -> forall fuel k, In k (registry L fuel) -> In (c_name (rg_class k)) always_broadcast ->
  forall P rows o, c_diff (rg_class k) P = false -> rows_of_length 1 rows -> rows <> [] ->
    partial_fit (new (C := rg_class k) P) (In2 rows) = (o, Ok tt) -> grows o.
Proof.
  intros N L HL fuel k Hk. unfold registry in Hk. cbn [In] in Hk. unfold always_broadcast.
  repeat (destruct Hk as [<-|Hk]; [cbn [rg_class]|]); try contradiction; intros Hn P rows o HD Hr Hne E;
  try (exfalso; cbn [c_name Empirical Diagonal Block Ewa Adaptive LedoitWolf OAS Shrunk Schur SchurCond SchurLW
         PartialMoments Huber Tyler Geodesic DCC Factor dict_class In] in Hn; repeat destruct Hn as [Hn|Hn]; discriminate || contradiction);
  first [ exact (ewa_like_grows _ _ _ _ _ P rows o HD Hr Hne E)
        | destruct (fitted_shape _ _ Empirical_by P 1 rows o (le_n 1) HD Hr Hne E) as (s & -> & W & _); apply step_grows; [exact HD|]; intros x _; exact (up_emp s x W)
        | destruct (fitted_shape _ _ Diagonal_by P 1 rows o (le_n 1) HD Hr Hne E) as (s & -> & W & _); apply step_grows; [exact HD|]; intros x _; exact (up_diag s x W)
        | destruct (fitted_shape _ _ LedoitWolf_by P 1 rows o (le_n 1) HD Hr Hne E) as (s & -> & W & _); apply step_grows; [exact HD|]; intros x _; exact (up_lw s x W)
        | destruct (fitted_shape _ _ DCC_by P 1 rows o (le_n 1) HD Hr Hne E) as (s & -> & W & _); apply step_grows; [exact HD|]; intros x _; exact (up_dcc s x W) ].
Qed.
(** Two classes that keep arrays of fixed shape: a longer row always raises. *)
Theorem C08_one_variable_refused :
  forall (N : Num) (L : LinAlg N), la_shapes L -> forall fuel k, In k (registry L fuel) -> In (c_name (rg_class k)) ["PartialMomentsCovariance"; "TylerCovariance"] ->
  forall P rows o, c_diff (rg_class k) P = false -> rows_of_length 1 rows -> rows <> [] ->
    partial_fit (new (C := rg_class k) P) (In2 rows) = (o, Ok tt) -> refuses o.
Proof.
  intros N L HL fuel k Hk. unfold registry in Hk. cbn [In] in Hk.
  repeat (destruct Hk as [<-|Hk]; [cbn [rg_class]|]); try contradiction; intros Hn P rows o HD Hr Hne E;
  try (exfalso; cbn [c_name Empirical Diagonal Block Ewa Adaptive LedoitWolf OAS Shrunk Schur SchurCond SchurLW
         PartialMoments Huber Tyler Geodesic DCC Factor dict_class In] in Hn; repeat destruct Hn as [Hn|Hn]; discriminate || contradiction);
  first [ destruct (fitted_shape _ _ (PartialMoments_by L HL fuel) P 1 rows o (le_n 1) HD Hr Hne E) as (s & -> & W & _); apply step_refuses; [exact HD|]; intros x Hx; exact (no_pm s x W Hx)
        | destruct (fitted_shape _ _ (Tyler_by L HL) P 1 rows o (le_n 1) HD Hr Hne E) as (s & -> & W & _); apply step_refuses; [exact HD|]; intros x Hx; exact (no_tyl L HL s x W Hx) ].
Qed.
(** FactorCovariance: with at least one factor a longer row raises; with k = 0 it is accepted. *)
Theorem C08_one_variable_factor :
  forall (N : Num) (P : c_P (Factor (N := N))) rows o, fac_diff P = false -> rows_of_length 1 rows -> rows <> [] ->
    partial_fit (new (C := Factor) P) (In2 rows) = (o, Ok tt) ->
    ((1 <= fac_k P)%Z -> refuses o) /\ (fac_k P = 0%Z -> grows o).
Proof.
  intros N P rows o HD Hr Hne E.
  assert (K : exists s, o = mkInst (C := Factor) P (Some s) (Some 1) None /\ conforms (sch_fac (Z.to_nat (Z.min (fac_k P) 1)) 1) s).
  { destruct (fitted_inv (C := Factor) P (fun s _ => conforms (sch_fac (Z.to_nat (Z.min (fac_k P) 1)) 1) s) 1 rows o HD Hr Hne) as (s & -> & W); eauto.
    - intros s Ei. cbn [c_init Factor dict_class] in Ei. unfold fac_init in Ei. change (Z.of_nat 1) with 1%Z in Ei. destruct (_ <? _)%Z; [discriminate|]. injection Ei as <-. conf_done.
    - intros s x s' n W Hx Eu. pose proof (fac_update_sh (fun _ => True) _ 1 s x (le_n 1) W Hx) as K. cbn [c_update Factor dict_class] in Eu. rewrite Eu in K. apply K. }
  destruct K as (s & -> & W). split; intros Hk.
  - replace (Z.to_nat (Z.min (fac_k P) 1)) with 1 in W by lia. apply step_refuses; [exact HD|]. intros x Hx. exact (no_fac s x W Hx).
  - rewrite Hk in W. apply step_grows; [exact HD|]. intros x _. exact (up_fac s x W).
Qed.
(** Four classes that switch after a burn-in of [nb] rows: a longer row is accepted before the switch and raises after it. *)
Definition burn_rule {N} (C : EstClass N) (rate : c_P C -> N) : Prop :=
  forall P rows o nb, c_diff C P = false -> rows_of_length 1 rows -> rows <> [] -> ewa_burn_n (rate P) = Ok nb ->
    partial_fit (new P) (In2 rows) = (o, Ok tt) -> (length rows < nb -> grows o) /\ (nb <= length rows -> refuses o).
Lemma emp_shape {N} (s s' : dict N) x : emp_update s x = Ok s' -> exists a b c d, s' = [("n_dim", a); ("n_samples", b); ("mean", c); ("cov", d)].
Proof.
  unfold emp_update. intros E. repeat match type of E with bind ?m _ = _ => destruct m; [cbn [bind] in E|discriminate] end. injection E as <-. eauto.
Qed.
Ltac keep E := repeat first
  [ match type of E with bind (emp_update ?s ?x) _ = _ => let H := fresh in destruct (emp_update s x) eqn:H; [destruct (emp_shape _ _ _ H) as (? & ? & ? & ? & ->); cbn [bind] in E|discriminate] end
  | match type of E with bind (if ?b then _ else _) _ = _ => destruct b end
  | match type of E with bind (bind ?m _) _ = _ => destruct m; [cbn [bind] in E|discriminate] end
  | match type of E with bind ?m _ = _ => destruct m; [cbn [bind] in E|discriminate] end
  | match type of E with (if ?b then _ else _) = _ => destruct b end ]; injection E as <-; reflexivity.
Section Burn.
  Context {N : Num}.
  Lemma burn_rule_intro name P diff (init : P -> nat -> res (dict N)) update cov sch (rate : P -> N) :
    behaved_by (dict_class (N := N) name P diff init update cov) (fun p s => conforms (sch p) s) eq ->
    (forall Pm s nb, init Pm 1 = Ok s -> ewa_burn_n (rate Pm) = Ok nb -> getI "n_burn" s = Ok nb) ->
    (forall Pm s x s' nb, conforms (sch 1) s -> update Pm s x = Ok s' -> getI "n_burn" s = Ok nb -> getI "n_burn" s' = Ok nb) ->
    (forall Pm s x, conforms (sch 1) s -> before s -> good_step s x (update Pm s x)) ->
    (forall Pm s x, conforms (sch 1) s -> past s -> 2 <= length x -> bad_step (update Pm s x)) ->
    burn_rule (dict_class (N := N) name P diff init update cov) rate.
  Proof.
    intros HB H1 H2 H3 H4 Pm rows o nb HD Hr Hne Hnb E.
    destruct (fitted_inv (C := dict_class (N := N) name P diff init update cov) Pm (fun s n => (conforms (sch 1) s /\ dict_nsamples s = Ok n) /\ getI "n_burn" s = Ok nb) 1 rows o HD Hr Hne) as (s & -> & [W Hn] & Hb).
    - intros s Ei. split; [exact (bh_init _ _ _ HB Pm 1 s (le_n 1) Ei)|]. exact (H1 Pm s nb Ei Hnb).
    - intros s x s' n [[W Hn] Hb] Hx Eu. destruct (bh_update _ _ _ HB _ _ _ _ _ (le_n 1) W Hx Eu) as [W' (m & E1 & E2)]. split; [split; [exact W'|]|].
      + cbn [c_nsamples dict_class] in E1, E2. congruence.
      + exact (H2 Pm s x s' nb W Eu Hb).
    - exact E.
    - split; intros Hl.
      + apply step_grows; [exact HD|]. intros x _. apply H3; [exact W|]. exists (length rows), nb. split; [exact Hn|]. split; [exact Hb|exact Hl].
      + apply step_refuses; [exact HD|]. intros x Hx. apply H4; [exact W| |exact Hx]. exists (length rows), nb. split; [exact Hn|]. split; [exact Hb|exact Hl].
  Qed.
End Burn.
Theorem C08_one_variable_burn :
  forall (N : Num) (L : LinAlg N), la_shapes L ->
    burn_rule (Adaptive L) ada_r /\ burn_rule (Huber L) hub_r /\ burn_rule (Geodesic L) ewa_r /\ burn_rule (SchurLW L) blk_r.
Proof.
  intros N L HL. split; [|split; [|split]].
  - apply (burn_rule_intro _ _ _ _ _ _ sch_ada); [exact (Adaptive_by L HL)| | |intros; now apply up_ada|intros; now apply no_ada].
    + intros Pm s nb Ei Eb. unfold ada_init, ewa_init in Ei. rewrite Eb in Ei. cbn [bind] in Ei. injection Ei as <-. reflexivity.
    + intros Pm s x s' nb W E Hb. unfold sch_ada, sch_ewa, sch_emp in W. cbn [app] in W. open_conf W. rewrite <- Hb. unfold ada_update in E. cbn [getI getN getV getM dget String.eqb Ascii.eqb Bool.eqb bind] in E. keep E.
  - apply (burn_rule_intro _ _ _ _ _ _ sch_ewa); [exact (Huber_by L HL)| | |intros; now apply up_hub|intros; now apply no_hub].
    + intros Pm s nb Ei Eb. unfold ewa_init in Ei. rewrite Eb in Ei. cbn [bind] in Ei. injection Ei as <-. reflexivity.
    + intros Pm s x s' nb W E Hb. unfold sch_ewa, sch_emp in W. cbn [app] in W. open_conf W. rewrite <- Hb. unfold hub_update in E. cbn [getI getN getV getM dget String.eqb Ascii.eqb Bool.eqb bind] in E. keep E.
  - apply (burn_rule_intro _ _ _ _ _ _ sch_ewa); [exact (Geodesic_by L HL)| | |intros; now apply up_geo|intros; now apply no_geo].
    + intros Pm s nb Ei Eb. unfold ewa_init in Ei. rewrite Eb in Ei. cbn [bind] in Ei. injection Ei as <-. reflexivity.
    + intros Pm s x s' nb W E Hb. unfold sch_ewa, sch_emp in W. cbn [app] in W. open_conf W. rewrite <- Hb. unfold geo_update in E. cbn [getI getN getV getM dget String.eqb Ascii.eqb Bool.eqb bind] in E. keep E.
  - apply (burn_rule_intro _ _ _ _ _ _ sch_slw); [exact (SchurLW_by L HL)| | |intros; now apply up_slw|intros; now apply no_slw].
    + intros Pm s nb Ei Eb. unfold slw_init, ewa_init in Ei. rewrite Eb in Ei. cbn [bind] in Ei. injection Ei as <-. reflexivity.
    + intros Pm s x s' nb W E Hb. unfold sch_slw, sch_ewa, sch_emp in W. cbn [app] in W. open_conf W. rewrite <- Hb. unfold slw_update in E. cbn [getI getN getV getM dget String.eqb Ascii.eqb Bool.eqb bind] in E. keep E.
Qed.

(** ** The hypotheses are met *)
Example C08_one_variable_met_empirical : forall (N : Num) (a b : N), rows_of_length 1 [[a]; [b]] /\
  snd (partial_fit (new (C := Empirical) (mkEmpP false)) (In2 [[a]; [b]])) = Ok tt.
Proof. intros. split; [repeat constructor|reflexivity]. Qed.
Example C08_one_variable_met_moments : forall (L : LinAlg NumF) fuel,
  snd (partial_fit (new (C := PartialMoments L fuel) (mkEwaP (N := NumF) (nlit 5 1) false)) (In2 [[nlit 1 0]; [nlit 25 1]])) = Ok tt.
Proof. intros. vm_compute. reflexivity. Qed.
Example C08_one_variable_met_factor : snd (partial_fit (new (C := Factor) (mkFacP (N := NumF) 3 (nlit 5 1) false)) (In2 [[nlit 1 0]; [nlit 25 1]])) = Ok tt.
Proof. vm_compute. reflexivity. Qed.
(** rate 0.5: the burn-in is five rows; both two and five rows are possible histories *)
Example C08_one_variable_met_burn : forall (L : LinAlg NumF), ewa_burn_n (N := NumF) (nlit 5 1) = Ok 5 /\
  snd (partial_fit (new (C := Huber L) (mkHubP (N := NumF) (nlit 5 1) (nlit 2 0) false)) (In2 [[nlit 1 0]; [nlit 25 1]])) = Ok tt /\
  snd (partial_fit (new (C := Huber L) (mkHubP (N := NumF) (nlit 5 1) (nlit 2 0) false)) (In2 [[nlit 1 0]; [nlit 25 1]; [nlit 3 0]; [nlit 4 0]; [nlit 1 0]])) = Ok tt.
Proof. intros. vm_compute. repeat split. Qed.

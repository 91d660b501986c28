(** * Every registered class: state shapes, sample counter, checkpoint round trip (law-free) *)
From Coq Require Import ZArith Bool String List Lia Arith.
From Verif Require Import Num Numpy PyVal LinalgModel StateModel BaseModel Estimators RegistryModel
  Spec ListLemmas BaseProofs Shapes.
Import ListNotations.
Local Open Scope string_scope.

(** A relation between states that no hook of the class can tell apart. *)
Definition state_bisim {N} (C : EstClass N) (R : c_St C -> c_St C -> Prop) : Prop :=
  forall s s', R s s' ->
    (forall P x, match c_update C P s x, c_update C P s' x with
                 | Ok a, Ok b => R a b | Err e, Err e' => e = e' | _, _ => False end) /\
    (forall P, c_cov C P s = c_cov C P s') /\ (forall P, c_mean C P s = c_mean C P s') /\
    c_nsamples C s = c_nsamples C s' /\
    (forall f P, c_prec C = Some f -> f P s = f P s').

Record behaved_by {N} (C : EstClass N) (wf : nat -> c_St C -> Prop) (R : c_St C -> c_St C -> Prop)
  : Prop := {
  bh_init : forall P p s, 1 <= p -> c_init C P p = Ok s -> wf p s /\ c_nsamples C s = Ok 0;
  bh_update : forall P p s x s', 1 <= p -> wf p s -> length x = p -> c_update C P s x = Ok s' ->
    wf p s' /\ exists n, c_nsamples C s = Ok n /\ c_nsamples C s' = Ok (S n);
  bh_mean : forall P p s, 1 <= p -> wf p s -> exists v, c_mean C P s = Ok v /\ length v = p;
  bh_cov : forall P p s, 1 <= p -> wf p s -> holds (fun _ => True) (is_mat p p) (c_cov C P s);
  bh_round : forall p s, 1 <= p -> wf p s ->
    exists j s', c_get C s = Ok j /\ c_set C j = Ok (s', Some p) /\ R s s';
  bh_sim : state_bisim C R;
  bh_size : forall p s j, 1 <= p -> wf p s -> c_get C s = Ok j -> state_size j <= quadratic_budget p;
}.
Definition behaved {N} (C : EstClass N) : Prop := exists wf R, behaved_by C wf R.

Lemma eq_bisim {N} (C : EstClass N) : state_bisim C eq.
Proof.
  intros s s' <-. split; [|repeat split; auto]. intros P x. destruct (c_update C P s x); auto.
Qed.

Lemma conforms_cons {N} k kd sch (s : dict N) :
  conforms ((k, kd) :: sch) s ->
  exists v s', s = (k, v) :: s' /\ has_kind kd v /\ conforms sch s'.
Proof.
  intros H. inversion H as [|? [k' v] ? s' [E1 E2] H']; subst. simpl in *. subst. eauto.
Qed.
Lemma conforms_nil {N} (s : dict N) : conforms [] s -> s = [].
Proof. intros H. now inversion H. Qed.

(** The JSON round trip of a conforming dict. *)
Lemma dict_roundtrip {N} sch p (s : dict N) :
  conforms sch s -> Forall (fun kk => kind_json (snd kk)) sch -> dget "n_dim" sch = Some (KDim p) ->
  exists j, dict_get s = Ok j /\ dict_set j = Ok (s, Some p).
Proof.
  intros Hc Hj Hd. eexists; split; [reflexivity|]. unfold dict_set.
  match goal with |- bind (mapM ?f ?l) _ = _ => assert (E : mapM f l = Ok s) end.
  { clear Hd. revert Hj. induction Hc as [|[k kd] [k' v] sch s [Ek Hk] Hc IH]; intros Hj; auto.
    inversion Hj as [|? ? Hkj Hj']; subst. simpl in Ek, Hk, Hkj. subst k'.
    cbn [map mapM fst snd]. rewrite (IH Hj'). clear IH.
    destruct kd, v as [n'|x|[v|m|t]]; simpl in Hk; try contradiction; cbn [bind]; auto;
      unfold tolist.
    - now rewrite np_array_A1.
    - rewrite (np_array_A2 _ _ _ Hk Hkj). reflexivity.
    - destruct Hk as [Hk1 Hk2], Hkj as [Hj1 Hj2]. rewrite (np_array_A3 _ _ _ _ Hk1 Hk2 Hj1 Hj2). reflexivity. }
  rewrite E. cbn [bind].
  assert (D : dget "n_dim" s = Some (VInt p)).
  { clear E Hj. induction Hc as [|[k kd] [k' v] sch s [Ek Hk] Hc IH]; [discriminate|].
    cbn [fst snd] in *. subst k'. cbn [dget] in *. destruct (String.eqb "n_dim" k); auto.
    injection Hd as ->. destruct v; simpl in Hk; try contradiction. now subst. }
  now rewrite D.
Qed.

(** The size of a conforming dict is determined by its schema. *)
Definition kind_size (k : kind) : nat :=
  match k with KInt | KDim _ | KNum => 1 | KVec p => p | KMat p q => p * q | KTen a p q => a * (p * q) end.
Definition schema_size (sch : list (string * kind)) : nat := list_sum (map (fun kk => kind_size (snd kk)) sch).
Lemma list_sum_const {A} (f : A -> nat) c l : Forall (fun a => f a = c) l -> list_sum (map f l) = length l * c.
Proof. induction 1 as [|a l Ha H IH]; cbn; auto. Qed.
Lemma json_size_vec {N : Num} (v : vec N) : list_sum (map json_size (map JNum v)) = length v.
Proof. induction v as [|x v IH]; cbn; auto. Qed.
Lemma json_size_mat {N : Num} p q (m : mat N) : is_mat p q m ->
  list_sum (map json_size (map (fun r => JList (map JNum r)) m)) = p * q.
Proof.
  intros [H1 H2]. rewrite map_map, (list_sum_const _ q); [now rewrite H1|].
  eapply Forall_impl; [|exact H2]. intros r Hr. cbv beta in Hr. rewrite <- Hr. apply json_size_vec.
Qed.
Lemma json_size_ten {N : Num} p q (t : list (mat N)) : Forall (is_mat p q) t ->
  list_sum (map json_size (map (fun m => JList (map (fun r => JList (map JNum r)) m)) t)) = length t * (p * q).
Proof.
  intros H. rewrite map_map. apply list_sum_const.
  eapply Forall_impl; [|exact H]. intros m Hm. exact (json_size_mat p q m Hm).
Qed.
Lemma schema_size_ok {N : Num} sch (s : dict N) j : conforms sch s -> dict_get s = Ok j -> state_size j = schema_size sch.
Proof.
  intros H [= <-]. induction H as [|[k kd] [k' v] sch s [E1 E2] H IH]; auto. cbn [fst snd] in *.
  unfold state_size, schema_size in *. cbn [map fst snd]. unfold list_sum in *. cbn [fold_right]. rewrite IH. f_equal.
  destruct kd, v as [n'|x|[v|m|t]]; cbn [has_kind] in E2; try contradiction; cbn [kind_size json_size tolist]; auto.
  - rewrite json_size_vec. auto.
  - now rewrite (json_size_mat p q).
  - destruct E2 as [E2 E3]. rewrite <- E2. exact (json_size_ten p q t E3).
Qed.

(** A class whose state is a dict with a fixed schema. *)
Lemma dict_behaved_by {N} name P diff init update cov (sch : nat -> list (string * kind)) :
  (forall p, 1 <= p -> schema_size (sch p) <= quadratic_budget p) ->
  (forall p, 1 <= p -> Forall (fun kk => kind_json (snd kk)) (sch p)) ->
  (forall p, dget "n_dim" (sch p) = Some (KDim p)) ->
  (forall p (s : dict N), conforms (sch p) s -> exists v, dict_mean s = Ok v /\ length v = p) ->
  (forall (Pm : P) p, 1 <= p ->
     holds (fun _ => True) (fun s => conforms (sch p) s /\ dict_nsamples s = Ok 0) (init Pm p)) ->
  (forall (Pm : P) p s x, 1 <= p -> conforms (sch p) s -> length x = p ->
     holds (fun _ => True)
       (fun s' => conforms (sch p) s' /\ exists n, dict_nsamples s = Ok n /\ dict_nsamples s' = Ok (S n))
       (update Pm s x)) ->
  (forall (Pm : P) p s, 1 <= p -> conforms (sch p) s -> holds (fun _ => True) (is_mat p p) (cov Pm s)) ->
  behaved_by (dict_class (N := N) name P diff init update cov) (fun p s => conforms (sch p) s) eq.
Proof.
  intros H0 H1 H2 H3 H4 H5 H6. split.
  - intros Pm p s Hp Hi. specialize (H4 Pm p Hp). simpl in Hi. now rewrite Hi in H4.
  - intros Pm p s x s' Hp Hw Hx Hu. specialize (H5 Pm p s x Hp Hw Hx). simpl in Hu. now rewrite Hu in H5.
  - intros Pm p s Hp Hw. apply H3; auto.
  - intros Pm p s Hp Hw. apply (H6 Pm p s Hp Hw).
  - intros p s Hp Hw. simpl.
    destruct (dict_roundtrip (sch p) p s Hw (H1 p Hp) (H2 p)) as (j & E1 & E2). eauto.
  - apply eq_bisim.
  - intros p s j Hp Hw Hg. rewrite (schema_size_ok (sch p) s j Hw Hg). now apply H0.
Qed.

Ltac open_conf H :=
  repeat (apply conforms_cons in H;
          let v := fresh "v" in let s := fresh "s" in let Hv := fresh "Hv" in
          destruct H as (v & s & -> & Hv & H);
          let v1 := fresh "u" in
          destruct v as [v1|v1|[v1|v1|v1]]; cbn [has_kind] in Hv; try contradiction;
          try (match type of Hv with True => clear Hv | ?a = _ => is_var a; subst a end));
  apply conforms_nil in H; rewrite H in *; clear H.

Ltac red_get := cbn [getI getN getV getM getT getN_default dget String.eqb Ascii.eqb Bool.eqb bind app fst snd].

Lemma vscale_len {N : Num} (c : N) a p : length a = p -> length (vscale c a) = p.
Proof. intros. unfold vscale. now rewrite map_length. Qed.
Lemma vdivs_len {N : Num} (c : N) (a : vec N) p : length a = p -> length (vdivs a c) = p.
Proof. intros. unfold vdivs. now rewrite map_length. Qed.
Lemma map_len {A B} (f : A -> B) a p : length a = p -> length (map f a) = p.
Proof. intros. now rewrite map_length. Qed.

Ltac sh_side :=
  solve [ repeat first
    [ assumption | apply tab_length
    | apply vscale_len | apply vdivs_len | apply map_len
    | apply mmap_sh | apply outer_sh | apply meye_sh | apply mzeros_sh | apply is_mat_tab2
    | (apply mdiag_sh) | lia ] ].

Ltac sh_step p :=
  lazymatch goal with
  | |- holds _ _ (bind (vsub _ _) _) =>
      eapply holds_bind; [apply (vsub_sh _ p); sh_side|]; let v := fresh "w" in let H := fresh "Hw" in intros v H; cbv beta in H
  | |- holds _ _ (bind (vadd _ _) _) =>
      eapply holds_bind; [apply (vadd_sh _ p); sh_side|]; let v := fresh "w" in let H := fresh "Hw" in intros v H; cbv beta in H
  | |- holds _ _ (bind (vmul _ _) _) =>
      eapply holds_bind; [apply (vmul_sh _ p); sh_side|]; let v := fresh "w" in let H := fresh "Hw" in intros v H; cbv beta in H
  | |- holds _ _ (bind (vdiv _ _) _) =>
      eapply holds_bind; [apply (vdiv_sh _ p); sh_side|]; let v := fresh "w" in let H := fresh "Hw" in intros v H; cbv beta in H
  | |- holds _ _ (bind (madd _ _) _) =>
      eapply holds_bind; [apply (madd_sh _ p p); sh_side|]; let v := fresh "w" in let H := fresh "Hw" in intros v H; cbv beta in H
  | |- holds _ _ (bind (msub _ _) _) =>
      eapply holds_bind; [apply (msub_sh _ p p); sh_side|]; let v := fresh "w" in let H := fresh "Hw" in intros v H; cbv beta in H
  | |- holds _ _ (bind (mmul _ _) _) =>
      eapply holds_bind; [apply (mmul_sh _ p p); sh_side|]; let v := fresh "w" in let H := fresh "Hw" in intros v H; cbv beta in H
  | |- holds _ _ (bind (vecmat _ _) _) =>
      eapply holds_bind; [apply (vecmat_sh _ p p); sh_side|]; let v := fresh "w" in let H := fresh "Hw" in intros v H; cbv beta in H
  | |- holds _ _ (bind (vdot _ _) _) =>
      eapply holds_bind; [apply (vdot_sh _ p); sh_side|]; let v := fresh "w" in intros v _
  | |- holds _ _ (bind (bind _ _) _) => eapply holds_bind
  end.

Ltac conf_done :=
  unfold conforms;
  lazymatch goal with |- Forall2 _ ?sc _ => let sc' := eval compute in sc in change sc with sc' end;
  cbn [app];
  repeat match goal with
  | |- Forall2 _ [] [] => constructor
  | |- Forall2 _ (_ :: _) (_ :: _) =>
      constructor; [split; [reflexivity|cbn [has_kind snd]; first [exact I | reflexivity | sh_side | idtac]]|]
  end.

Section Classes.
  Context {N : Num} (L : LinAlg N) (HL : la_shapes L).
  Notation vec := (vec N).
  Notation dict := (dict N).

  Definition sch_emp (p : nat) : list (string * kind) :=
    [("n_dim", KDim p); ("n_samples", KInt); ("mean", KVec p); ("cov", KMat p p)].
  Definition sch_ewa (p : nat) := (sch_emp p ++ [("r", KNum); ("n_burn", KInt)])%list.
  Definition sch_diag (p : nat) : list (string * kind) :=
    [("n_dim", KDim p); ("n_samples", KInt); ("mean", KVec p); ("var", KVec p); ("r", KNum); ("n_burn", KInt)].

  (** emp_update only reads the four fields it needs, so it is run on any dict that provides them. *)
  Lemma emp_update_sh E p (s : dict) (x : vec) n m c :
    1 <= p -> getI "n_samples" s = Ok n -> getV "mean" s = Ok m -> getM "cov" s = Ok c ->
    getI "n_dim" s = Ok p -> length m = p -> is_mat p p c -> length x = p ->
    holds E (fun s' => exists m' c', length m' = p /\ is_mat p p c' /\
      s' = [("n_dim", VInt p); ("n_samples", VInt (S n)); ("mean", VArr (A1 m')); ("cov", VArr (A2 c'))])
      (emp_update s x).
  Proof.
    intros Hp H1 H2 H3 H4 Hm Hc Hx. unfold emp_update. rewrite H1, H2, H3, H4. cbn [bind].
    repeat sh_step p. simpl. eexists _, _. split; [|split]; [..|reflexivity]; assumption.
  Qed.

  Ltac emp_step p := eapply (emp_update_sh (fun _ => True) p) || eapply (emp_update_sh _ p); first [reflexivity | eassumption].

  Lemma Empirical_by : behaved_by (Empirical (N := N)) (fun p s => conforms (sch_emp p) s) eq.
  Proof.
    apply dict_behaved_by with (sch := sch_emp).
    - intros p Hp. unfold quadratic_budget, schema_size. cbn -[Nat.mul]. nia.
    - intros p Hp. repeat constructor; simpl; auto.
    - reflexivity.
    - intros p s H. unfold sch_emp in H. open_conf H. red_get. eexists; split; [reflexivity|assumption].
    - intros Pm p Hp. simpl. split; [unfold emp_init; conf_done|reflexivity].
    - intros Pm p s x Hp H Hx. unfold sch_emp in H. open_conf H.
      eapply holds_mono; [emp_step p|auto|].
      intros s' (m' & c' & H1 & H2 & ->). split; [conf_done|]. eexists; split; reflexivity.
    - intros Pm p s Hp H. unfold sch_emp in H. cbn [app] in H. open_conf H. red_get. simpl. assumption.
  Qed.

  Lemma ewa_burn_sh (r : N) : holds (fun _ => True) (fun _ => True) (ewa_burn_n r).
  Proof. unfold ewa_burn_n. destruct (py_div n1 r); simpl; auto. destruct (nceil a); simpl; auto. Qed.

  Ltac fin := split; [conf_done|eexists; split; reflexivity].
  Ltac emp_bind p :=
    eapply holds_bind; [emp_step p|]; cbv beta;
    let m' := fresh "m'" in let c' := fresh "c'" in let H1 := fresh "H" in let H2 := fresh "H" in
    intros ? (m' & c' & H1 & H2 & ->); red_get.

  Lemma ewa_init_sh p (r : N) : 1 <= p ->
    holds (fun _ => True) (fun s => conforms (sch_ewa p) s /\ dict_nsamples s = Ok 0) (ewa_init p r).
  Proof.
    intros Hp. unfold ewa_init. eapply holds_bind; [apply ewa_burn_sh|]. intros nb _. simpl.
    split; [unfold emp_init; conf_done|reflexivity].
  Qed.

  Lemma ewa_update_sh E p (s : dict) (x : vec) : 1 <= p -> conforms (sch_ewa p) s -> length x = p ->
    holds E (fun s' => conforms (sch_ewa p) s' /\
       exists n, dict_nsamples s = Ok n /\ dict_nsamples s' = Ok (S n)) (ewa_update s x).
  Proof.
    intros Hp H Hx. unfold sch_ewa, sch_emp in H. cbn [app] in H. open_conf H.
    unfold ewa_update. red_get. destruct (Nat.ltb _ _).
    - emp_bind p. fin.
    - repeat sh_step p. fin.
  Qed.

  Definition cov_sh (sch : nat -> list (string * kind)) (cov : dict -> res (mat N)) : Prop :=
    forall p s, 1 <= p -> conforms (sch p) s -> holds (fun _ => True) (is_mat p p) (cov s).

  Lemma ewa_like_by name P diff (rr : P -> N) cov : (forall Pm, cov_sh sch_ewa (cov Pm)) ->
    behaved_by (dict_class (N := N) name P diff (fun p n => ewa_init n (rr p)) (fun _ => ewa_update) cov) (fun p s => conforms (sch_ewa p) s) eq.
  Proof.
    intros Hcov. apply dict_behaved_by with (sch := sch_ewa).
    - intros p Hp. unfold quadratic_budget, schema_size. cbn -[Nat.mul]. nia.
    - intros p Hp. repeat constructor; simpl; auto.
    - reflexivity.
    - intros p s H. unfold sch_ewa, sch_emp in H. cbn [app] in H. open_conf H.
      eexists; split; [reflexivity|assumption].
    - intros Pm p Hp. now apply ewa_init_sh.
    - intros Pm p s x Hp H Hx. now apply ewa_update_sh.
    - intros Pm p s Hp H. now apply Hcov.
  Qed.

  Lemma Diagonal_by : behaved_by (Diagonal (N := N)) (fun p s => conforms (sch_diag p) s) eq.
  Proof.
    apply dict_behaved_by with (sch := sch_diag).
    - intros p Hp. unfold quadratic_budget, schema_size. cbn -[Nat.mul]. nia.
    - intros p Hp. repeat constructor; simpl; auto.
    - reflexivity.
    - intros p s H. unfold sch_diag in H. open_conf H. eexists; split; [reflexivity|assumption].
    - intros Pm p Hp. unfold diag_init. eapply holds_bind; [apply ewa_burn_sh|]. intros nb _. simpl.
      split; [conf_done|reflexivity].
    - intros Pm p s x Hp H Hx. unfold sch_diag in H. open_conf H. unfold diag_update. red_get.
      repeat sh_step p.
      eapply holds_bind with (Q := fun mv => length (fst mv) = p /\ length (snd mv) = p).
      + destruct (Nat.leb _ _); repeat sh_step p; simpl; auto.
      + intros [m v] [H1 H2]. cbn [fst snd] in *. fin.
    - intros Pm p s Hp H. unfold sch_diag in H. open_conf H. simpl. apply mdiag_sh. assumption.
  Qed.

  Definition sch_ada p := (sch_ewa p ++ [("max_r", KNum); ("sbar", KNum)])%list.
  Lemma Adaptive_by : behaved_by (Adaptive L) (fun p s => conforms (sch_ada p) s) eq.
  Proof.
    apply dict_behaved_by with (sch := sch_ada).
    - intros p Hp. unfold quadratic_budget, schema_size. cbn -[Nat.mul]. nia.
    - intros p Hp. repeat constructor; simpl; auto.
    - reflexivity.
    - intros p s H. unfold sch_ada, sch_ewa, sch_emp in H. cbn [app] in H. open_conf H.
      eexists; split; [reflexivity|assumption].
    - intros Pm p Hp. unfold ada_init, ewa_init. destruct (ewa_burn_n _); simpl; auto.
      split; [conf_done|reflexivity].
    - intros Pm p s x Hp H Hx. unfold sch_ada, sch_ewa, sch_emp in H. cbn [app] in H. open_conf H.
      unfold ada_update. red_get. destruct (Nat.ltb _ _).
      + emp_bind p. fin.
      + repeat sh_step p. eapply holds_bind; [apply (try_invert_sh L HL _ I p); assumption|]. intros iv Hiv.
        repeat sh_step p. fin.
    - intros Pm p s Hp H. unfold sch_ada, sch_ewa, sch_emp in H. cbn [app] in H. open_conf H. red_get. simpl. assumption.
  Qed.

  Lemma check_shape_sh p (a : mat N) : holds (fun _ => True) (fun _ => True) (check_shape p a).
  Proof. unfold check_shape. destruct (_ && _); simpl; auto. Qed.
  Lemma py_div_sh (a b : N) : holds (fun _ => True) (fun _ => True) (py_div a b).
  Proof. destruct (py_div a b); simpl; auto. Qed.

  Lemma oas_cov_sh : cov_sh sch_ewa oas_cov.
  Proof.
    intros p s Hp H. unfold sch_ewa, sch_emp in H. cbn [app] in H. open_conf H. unfold oas_cov. red_get.
    eapply holds_bind; [apply py_div_sh|]. intros ri _.
    eapply holds_bind; [apply (matmul_sh _ p p p); assumption|]. intros SS HSS.
    eapply holds_bind; [apply py_div_sh|]. intros tp _. apply (madd_sh _ p p); sh_side.
  Qed.

  Lemma shr_cov_sh P : cov_sh sch_ewa (shr_cov P).
  Proof.
    intros p s Hp H. unfold sch_ewa, sch_emp in H. cbn [app] in H. open_conf H. unfold shr_cov. red_get.
    eapply holds_bind with (Q := is_mat p p).
    - destruct (String.eqb _ _); [simpl; sh_side|].
      eapply holds_bind; [apply (mdiv_sh _ p p); [assumption|]; apply outer_sh; apply map_len; now apply diagonal_sh|].
      intros corr Hc. eapply holds_bind; [apply check_shape_sh|]. intros _ _. simpl.
      match goal with |- is_mat p p (tab2 (nrows ?t) (ncols ?t) _) => assert (Ht : is_mat p p t) end.
      { apply mmap_sh. apply outer_sh; apply map_len; now apply diagonal_sh. }
      rewrite (nrows_sh p p _ Ht), (ncols_sh p p _ Ht Hp). apply is_mat_tab2.
    - intros T HT. apply (madd_sh _ p p); sh_side.
  Qed.

  Lemma damp_sh p cross g (c : mat N) : holds (fun _ => True) (is_mat p p) (damp p cross g c).
  Proof. unfold damp. eapply holds_bind; [apply check_shape_sh|]. intros _ _. apply is_mat_tab2. Qed.
  Lemma zero_cross_sh p cross (c : mat N) : holds (fun _ => True) (is_mat p p) (zero_cross p cross c).
  Proof. unfold zero_cross. eapply holds_bind; [apply check_shape_sh|]. intros _ _. apply is_mat_tab2. Qed.
  Lemma block_id_sh nb p : holds (fun _ => True) (fun _ => True) (block_id nb p).
  Proof. destruct (block_id nb p); simpl; auto. Qed.

  Lemma sch_cov_sh P : cov_sh sch_ewa (sch_cov L P).
  Proof.
    intros p s Hp H. unfold sch_ewa, sch_emp in H. cbn [app] in H. open_conf H. unfold sch_cov. red_get.
    eapply holds_bind; [apply block_id_sh|]. intros bid _. destruct (String.eqb _ _).
    - eapply holds_bind; [apply zero_cross_sh|]. intros bd Hbd.
      eapply holds_bind; [apply (make_pos_def_sh L HL _ I p); assumption|]. intros a Ha.
      eapply holds_bind; [apply (make_pos_def_sh L HL _ I p); assumption|]. intros b Hb.
      now apply (geodesic_step_sh L HL _ I p).
    - eapply holds_bind; [apply damp_sh|]. intros o Ho.
      eapply holds_bind; [apply (to_symmetric_sh _ p); assumption|]. intros o' Ho'.
      now apply (make_pos_def_sh L HL _ I p).
  Qed.

  Definition sch_lw p := (sch_ewa p ++ [("pi_bar", KNum)])%list.
  Lemma lw_cov_sh : cov_sh sch_lw lw_cov.
  Proof.
    intros p s Hp H. unfold sch_lw, sch_ewa, sch_emp in H. cbn [app] in H. open_conf H. unfold lw_cov. red_get.
    repeat sh_step p. destruct (_ || _); [simpl; assumption|]. apply (madd_sh _ p p); sh_side.
  Qed.
  Lemma LedoitWolf_by : behaved_by (LedoitWolf (N := N)) (fun p s => conforms (sch_lw p) s) eq.
  Proof.
    apply dict_behaved_by with (sch := sch_lw).
    - intros p Hp. unfold quadratic_budget, schema_size. cbn -[Nat.mul]. nia.
    - intros p Hp. repeat constructor; simpl; auto.
    - reflexivity.
    - intros p s H. unfold sch_lw, sch_ewa, sch_emp in H. cbn [app] in H. open_conf H.
      eexists; split; [reflexivity|assumption].
    - intros Pm p Hp. unfold lw_init, ewa_init. destruct (ewa_burn_n _); simpl; auto.
      split; [conf_done|reflexivity].
    - intros Pm p s x Hp H Hx. unfold sch_lw, sch_ewa, sch_emp in H. cbn [app] in H. open_conf H.
      unfold lw_update. red_get. destruct (Nat.ltb _ _).
      + emp_bind p. fin.
      + repeat sh_step p. fin.
    - intros Pm p s Hp H. now apply lw_cov_sh.
  Qed.

  Definition sch_slw p := (sch_ewa p ++ [("pi_cross", KNum)])%list.
  Lemma slw_cov_sh P : cov_sh sch_slw (slw_cov L P).
  Proof.
    intros p s Hp H. unfold sch_slw, sch_ewa, sch_emp in H. cbn [app] in H. open_conf H. unfold slw_cov.
    eapply holds_bind with (Q := fun _ => True). { destruct (slw_gamma _ _); simpl; auto. }
    intros g _. red_get. eapply holds_bind; [apply block_id_sh|]. intros bid _.
    eapply holds_bind; [apply damp_sh|]. intros o Ho.
    eapply holds_bind; [apply (to_symmetric_sh _ p); assumption|]. intros o' Ho'.
    now apply (make_pos_def_sh L HL _ I p).
  Qed.
  Lemma SchurLW_by : behaved_by (SchurLW L) (fun p s => conforms (sch_slw p) s) eq.
  Proof.
    apply dict_behaved_by with (sch := sch_slw).
    - intros p Hp. unfold quadratic_budget, schema_size. cbn -[Nat.mul]. nia.
    - intros p Hp. repeat constructor; simpl; auto.
    - reflexivity.
    - intros p s H. unfold sch_slw, sch_ewa, sch_emp in H. cbn [app] in H. open_conf H.
      eexists; split; [reflexivity|assumption].
    - intros Pm p Hp. unfold slw_init, ewa_init. destruct (ewa_burn_n _); simpl; auto.
      split; [conf_done|reflexivity].
    - intros Pm p s x Hp H Hx. unfold sch_slw, sch_ewa, sch_emp in H. cbn [app] in H. open_conf H.
      unfold slw_update. red_get. destruct (Nat.ltb _ _).
      + emp_bind p. fin.
      + destruct (block_id _ _); simpl; auto. repeat sh_step p.
        destruct (check_shape _ _); simpl; auto. repeat sh_step p. fin.
    - intros Pm p s Hp H. now apply slw_cov_sh.
  Qed.

  Definition sch_pm (p : nat) : list (string * kind) :=
    [("n_dim", KDim p); ("n_samples", KInt); ("mean", KVec p); ("quadrants", KTen 4 p p); ("r", KNum); ("n_burn", KInt)].

  Lemma zipM_sh {A B D} E (Q : D -> Prop) (R : A -> Prop) (f : A -> B -> res D) a b :
    Forall R a -> (forall x y, R x -> holds E Q (f x y)) -> length a = length b ->
    holds E (fun r => length r = length a /\ Forall Q r) (zipM f a b).
  Proof.
    intros HR Hf. revert b. induction HR as [|x a Hx HR IH]; intros [|y b] Hl; try discriminate; simpl; auto.
    eapply holds_bind; [apply Hf; exact Hx|]. intros c Hc.
    eapply holds_bind; [apply IH; now injection Hl|]. intros cs [H1 H2]. simpl. split; [congruence|auto].
  Qed.

  Lemma foldM_sh {A B} E (Q : A -> Prop) (f : A -> B -> res A) l : forall a, Q a ->
    (forall a b, In b l -> Q a -> holds E Q (f a b)) -> holds E Q (foldM f a l).
  Proof.
    induction l as [|b l IH]; intros a Ha Hf; [exact Ha|]. cbn [foldM].
    eapply holds_bind; [apply Hf; simpl; auto|]. intros a' Ha'. apply IH; auto. intros. apply Hf; simpl; auto.
  Qed.
  Lemma pm_cov_sh fuel : cov_sh sch_pm (pm_cov L fuel).
  Proof.
    intros p s Hp H. unfold sch_pm in H. cbn [app] in H. open_conf H. unfold pm_cov. red_get.
    destruct Hv0 as [Hl Hq].
    eapply holds_bind with (Q := is_mat p p).
    { match type of Hl with length ?t = _ => destruct t as [|m t]; [discriminate Hl|] end.
      pose proof (Forall_inv Hq) as Hm. pose proof (Forall_inv_tail Hq) as Ht. rewrite Forall_forall in Ht.
      cbn [sum_axis0]. apply foldM_sh; [exact Hm|]. intros a b Hb Ha. apply (madd_sh _ p p); auto. }
    intros t Ht. eapply holds_bind; [apply (to_symmetric_sh _ p); assumption|]. intros t' Ht'.
    now apply (nearest_pos_def_sh L HL _ I I p).
  Qed.
  Lemma PartialMoments_by fuel : behaved_by (PartialMoments L fuel) (fun p s => conforms (sch_pm p) s) eq.
  Proof.
    apply dict_behaved_by with (sch := sch_pm).
    - intros p Hp. unfold quadratic_budget, schema_size. cbn -[Nat.mul]. nia.
    - intros p Hp. repeat constructor; simpl; auto.
    - reflexivity.
    - intros p s H. unfold sch_pm in H. cbn [app] in H. open_conf H.
      eexists; split; [reflexivity|assumption].
    - intros Pm p Hp. unfold pm_init. destruct (ewa_burn_n _); simpl; auto.
      split; [conf_done|reflexivity].
      split; [reflexivity|]. repeat constructor; apply mzeros_sh.
    - intros Pm p s x Hp H Hx. unfold sch_pm in H. cbn [app] in H. open_conf H.
      unfold pm_update. red_get. repeat sh_step p.
      eapply holds_bind with (Q := fun v => length v = p).
      { destruct (Nat.leb _ _); [apply (vadd_sh _ p)|apply (vadd_sh _ p)]; sh_side. }
      intros mean Hmean. repeat sh_step p.
      eapply holds_bind.
      { apply (zipM_sh _ (is_mat p p) (is_mat p p)); [apply Hv0| |].
        - intros q [sa sb] Hq. cbn [fst snd]. eapply holds_bind with (Q := is_mat p p).
          { destruct (Nat.leb _ _).
            + repeat sh_step p. apply (madd_sh _ p p); sh_side.
            + apply (madd_sh _ p p); [apply mmap_sh; exact Hq|].
              apply mmap_sh. apply outer_sh; apply map_len; assumption. }
          intros new Hnew. unfold slot_assign.
          rewrite (nrows_sh p p _ Hq), (nrows_sh p p _ Hnew), (ncols_sh p p _ Hq Hp), (ncols_sh p p _ Hnew Hp), !Nat.eqb_refl. exact Hnew.
        - destruct Hv0 as [Hl _]. exact Hl. }
      intros qs [Hq1 Hq2]. cbv beta in *. destruct Hv0 as [Hl _]. split; [|eexists; split; reflexivity].
      conf_done. cbn. split; [exact (eq_trans Hq1 Hl)|assumption].
    - intros Pm p s Hp H. now apply pm_cov_sh.
  Qed.

  Lemma Huber_by : behaved_by (Huber L) (fun p s => conforms (sch_ewa p) s) eq.
  Proof.
    apply dict_behaved_by with (sch := sch_ewa).
    - intros p Hp. unfold quadratic_budget, schema_size. cbn -[Nat.mul]. nia.
    - intros p Hp. repeat constructor; simpl; auto.
    - reflexivity.
    - intros p s H. unfold sch_ewa, sch_emp in H. cbn [app] in H. open_conf H.
      eexists; split; [reflexivity|assumption].
    - intros Pm p Hp. unfold ewa_init. cbn. destruct (ewa_burn_n _); simpl; auto.
      split; [conf_done|reflexivity].
    - intros Pm p s x Hp H Hx. unfold sch_ewa, sch_emp in H. cbn [app] in H. open_conf H.
      unfold hub_update. red_get. destruct (Nat.ltb _ _).
      + emp_bind p. fin.
      + repeat sh_step p. eapply holds_bind; [apply (try_invert_sh L HL _ I p); assumption|]. intros iv Hiv.
        repeat sh_step p. eapply holds_bind with (Q := fun _ => True).
        { destruct (nleb _ _); simpl; auto. destruct (py_div _ _); simpl; auto. }
        intros w' _. repeat sh_step p. fin.
    - intros Pm p s Hp H. unfold sch_ewa, sch_emp in H. cbn [app] in H. open_conf H. red_get. simpl. assumption.
  Qed.

  Definition sch_tyl (p : nat) : list (string * kind) :=
    [("n_dim", KDim p); ("n_samples", KInt); ("mean", KVec p); ("C", KMat p p); ("r", KNum); ("n_burn", KInt)].

  Lemma Tyler_by : behaved_by (Tyler L) (fun p s => conforms (sch_tyl p) s) eq.
  Proof.
    apply dict_behaved_by with (sch := sch_tyl).
    - intros p Hp. unfold quadratic_budget, schema_size. cbn -[Nat.mul]. nia.
    - intros p Hp. repeat constructor; simpl; auto.
    - reflexivity.
    - intros p s H. unfold sch_tyl in H. cbn [app] in H. open_conf H.
      eexists; split; [reflexivity|assumption].
    - intros Pm p Hp. unfold tyl_init. destruct (ewa_burn_n _); simpl; auto.
      split; [conf_done|reflexivity].
    - intros Pm p s x Hp H Hx. unfold sch_tyl in H. cbn [app] in H. open_conf H.
      unfold tyl_update. red_get. repeat sh_step p.
      eapply holds_bind with (Q := fun lm => length (snd lm) = p).
      { destruct (Nat.leb _ _); repeat sh_step p; simpl; auto. }
      intros [lr mean] Hm. cbn [fst snd] in *. repeat sh_step p.
      eapply holds_bind; [apply (try_invert_sh L HL _ I p); assumption|]. intros iv Hiv.
      repeat sh_step p. fin.
    - intros Pm p s Hp H. unfold sch_tyl in H. open_conf H. unfold tyl_cov. red_get. now apply cov_to_corrcoef_sh.
  Qed.

  Lemma Geodesic_by : behaved_by (Geodesic L) (fun p s => conforms (sch_ewa p) s) eq.
  Proof.
    apply dict_behaved_by with (sch := sch_ewa).
    - intros p Hp. unfold quadratic_budget, schema_size. cbn -[Nat.mul]. nia.
    - intros p Hp. repeat constructor; simpl; auto.
    - reflexivity.
    - intros p s H. unfold sch_ewa, sch_emp in H. cbn [app] in H. open_conf H.
      eexists; split; [reflexivity|assumption].
    - intros Pm p Hp. unfold ewa_init. cbn. destruct (ewa_burn_n _); simpl; auto.
      split; [conf_done|reflexivity].
    - intros Pm p s x Hp H Hx. unfold sch_ewa, sch_emp in H. cbn [app] in H. open_conf H.
      unfold geo_update. red_get. destruct (Nat.ltb _ _).
      + emp_bind p. fin.
      + repeat sh_step p.
        eapply holds_bind; [apply (geodesic_step_sh L HL _ I p); sh_side|]. intros cv Hcv. fin.
    - intros Pm p s Hp H. unfold sch_ewa, sch_emp in H. cbn [app] in H. open_conf H. red_get. simpl. assumption.
  Qed.

  Definition sch_dcc0 (p : nat) : list (string * kind) :=
    [("n_dim", KDim p); ("n_samples", KInt); ("mean", KVec p); ("cov", KMat p p); ("h", KVec p);
     ("Q", KMat p p); ("r", KNum); ("vol_r", KNum); ("n_burn", KInt)].
  Definition sch_dcc1 (p : nat) : list (string * kind) :=
    [("n_dim", KDim p); ("n_samples", KInt); ("mean", KVec p); ("h", KVec p);
     ("Q", KMat p p); ("r", KNum); ("vol_r", KNum); ("n_burn", KInt)].

  Lemma dcc_update_sh E p (s : dict) (x : vec) :
    1 <= p -> conforms (sch_dcc0 p) s \/ conforms (sch_dcc1 p) s -> length x = p ->
    holds E (fun s' => conforms (sch_dcc1 p) s' /\
       exists n, dict_nsamples s = Ok n /\ dict_nsamples s' = Ok (S n)) (dcc_update s x).
  Proof.
    intros Hp [H|H] Hx; [unfold sch_dcc0 in H|unfold sch_dcc1 in H]; open_conf H; unfold dcc_update; red_get;
      repeat sh_step p.
    all: eapply holds_bind with (Q := fun lm => length (fst lm) = p /\ length (snd lm) = p);
      [destruct (Nat.leb _ _); repeat sh_step p; simpl; auto|].
    all: intros [mean h] [Hm Hh]; cbn [fst snd] in *; repeat sh_step p.
    all: eapply holds_bind with (Q := is_mat p p);
      [destruct (Nat.leb _ _); repeat sh_step p; apply (madd_sh _ p p); sh_side|].
    all: intros Q HQ; fin.
  Qed.

  (** DCC: the state made by [_init_state] has a "cov" entry (from emp_init) that updates drop. *)
  Lemma DCC_by : behaved_by (DCC (N := N)) (fun p s => conforms (sch_dcc0 p) s \/ conforms (sch_dcc1 p) s) eq.
  Proof.
    split.
    - intros Pm p s Hp. simpl. unfold dcc_init. destruct (ewa_burn_n _); simpl; [|discriminate].
      intros [= <-]. split; [left|reflexivity]. unfold emp_init. conf_done.
    - intros Pm p s x s' Hp Hw Hx Hu. simpl in Hu.
      pose proof (dcc_update_sh (fun _ => True) p s x Hp Hw Hx) as H. rewrite Hu in H. simpl in H.
      destruct H as [H1 H2]. split; auto.
    - intros Pm p s Hp [H|H]; [unfold sch_dcc0 in H|unfold sch_dcc1 in H]; open_conf H;
        (eexists; split; [reflexivity|assumption]).
    - intros Pm p s Hp [H|H]; [unfold sch_dcc0 in H|unfold sch_dcc1 in H]; open_conf H; cbn [c_cov DCC dict_class];
        unfold dcc_cov; red_get;
        (eapply holds_bind; [apply (mmul_sh _ p p); [assumption|]; apply outer_sh; apply map_len; now apply diagonal_sh|]);
        intros R HR; apply (mmul_sh _ p p); try assumption; apply outer_sh; apply map_len; assumption.
    - intros p s Hp [H|H]; simpl.
      + destruct (dict_roundtrip (sch_dcc0 p) p s H) as (j & E1 & E2); eauto.
        repeat constructor; simpl; auto.
      + destruct (dict_roundtrip (sch_dcc1 p) p s H) as (j & E1 & E2); eauto.
        repeat constructor; simpl; auto.
    - apply eq_bisim.
    - intros p s j Hp [H|H] Hg; rewrite (schema_size_ok _ s j H Hg); unfold quadratic_budget, schema_size; cbn -[Nat.mul]; nia.
  Qed.

  (** Factor: [k] rows of components, [k] fixed at construction of the state. *)
  Definition sch_fac (k p : nat) : list (string * kind) :=
    [("n_dim", KDim p); ("n_samples", KInt); ("mean", KVec p); ("var", KVec p); ("V", KMat k p);
     ("k", KDim k); ("r", KNum); ("n_burn", KInt)].

  Lemma row_assign_sh E p (old u : vec) : length old = p -> length u = p ->
    holds E (fun v => length v = p) (row_assign old u).
  Proof. intros H1 H2. unfold row_assign. now rewrite H1, H2, Nat.eqb_refl. Qed.

  Lemma ccipca_sh E lr p k (u : vec) V : length u = p -> is_mat k p V -> holds E (is_mat k p) (ccipca lr u V).
  Proof.
    intros Hu [HV1 HV2]. revert u k Hu HV1. induction HV2 as [|v V Hv HV2 IH]; intros u k Hu HV1; simpl in *.
    - split; auto.
    - destruct k as [|k]; [discriminate|].
      destruct (nltb _ _).
      + eapply holds_bind; [apply (row_assign_sh _ p); assumption|]. intros v' Hv'. simpl.
        split; [simpl; congruence|constructor; auto].
      + eapply holds_bind; [apply (vdot_sh _ p); sh_side|]. intros pr _. repeat sh_step p.
        eapply holds_bind; [apply (row_assign_sh _ p); assumption|]. intros v' Hv'.
        repeat sh_step p.
        eapply holds_bind; [apply (IH _ k); [assumption|congruence]|]. intros r [Hr1 Hr2]. simpl.
        split; [simpl; congruence|constructor; auto].
  Qed.

  Lemma fac_update_sh E k p (s : dict) (x : vec) :
    1 <= p -> conforms (sch_fac k p) s -> length x = p ->
    holds E (fun s' => conforms (sch_fac k p) s' /\
       exists n, dict_nsamples s = Ok n /\ dict_nsamples s' = Ok (S n)) (fac_update s x).
  Proof.
    intros Hp H Hx. unfold sch_fac in H. open_conf H. unfold fac_update. red_get. repeat sh_step p.
    eapply holds_bind with (Q := fun lm => length (snd (fst lm)) = p /\ length (snd lm) = p).
    { destruct (Nat.leb _ _); repeat sh_step p; simpl; auto. }
    intros [[lr mean] var] [Hm Hvr]. cbn [fst snd] in *.
    eapply holds_bind; [apply (ccipca_sh _ _ p k); assumption|]. intros V' HV'. fin.
  Qed.

  (** With [k = 0] the (0, p) component array comes back from JSON as an empty 1-d array. *)
  Definition fac_eq (s s' : dict) : Prop :=
    s = s' \/
    exists p n m v r b,
      s = [("n_dim", VInt p); ("n_samples", VInt n); ("mean", VArr (A1 m)); ("var", VArr (A1 v));
           ("V", VArr (A2 [])); ("k", VInt 0); ("r", VNum r); ("n_burn", VInt b)] /\
      s' = [("n_dim", VInt p); ("n_samples", VInt n); ("mean", VArr (A1 m)); ("var", VArr (A1 v));
            ("V", VArr (A1 [])); ("k", VInt 0); ("r", VNum r); ("n_burn", VInt b)].

  Lemma Factor_by : behaved_by (Factor (N := N)) (fun p s => exists k, k <= p /\ conforms (sch_fac k p) s) fac_eq.
  Proof.
    split.
    - intros Pm p s Hp. simpl. unfold fac_init. destruct (Z.ltb _ _); [discriminate|].
      intros [= <-]. split; [|reflexivity]. exists (Z.to_nat (Z.min (fac_k Pm) (Z.of_nat p))).
      split; [lia|]. conf_done.
    - intros Pm p s x s' Hp (k & Hk & Hw) Hx Hu. simpl in Hu.
      pose proof (fac_update_sh (fun _ => True) k p s x Hp Hw Hx) as H. rewrite Hu in H. simpl in H.
      destruct H as [H1 H2]. split; eauto.
    - intros Pm p s Hp (k & Hk & H). unfold sch_fac in H. open_conf H. eexists; split; [reflexivity|assumption].
    - intros Pm p s Hp (k & Hk & H). unfold sch_fac in H. open_conf H. cbn [c_cov Factor dict_class]. unfold fac_cov. red_get.
      eapply holds_bind with (Q := fun fc => is_mat p p (fst fc) /\ length (snd fc) = p).
      + assert (Hacc : is_mat p p (fst (mzeros (N := N) p p, vzeros (N := N) p)) /\
                       length (snd (mzeros (N := N) p p, vzeros (N := N) p)) = p)
          by (split; [apply mzeros_sh|apply tab_length]).
        match type of Hv1 with is_mat _ _ ?V => destruct Hv1 as [_ HV] end.
        revert Hacc. generalize (mzeros (N := N) p p, vzeros (N := N) p) as acc.
        match type of HV with Forall _ ?V => revert HV; generalize V end.
        intros V HV. induction HV as [|v V Hv' HV IH]; intros acc [Ha1 Ha2]; [split; assumption|].
        cbn [foldM]. eapply holds_bind; [|intros acc' Hacc'; apply IH; exact Hacc'].
        unfold fac_acc. destruct (nltb _ _); [|split; assumption].
        repeat sh_step p. simpl. split; assumption.
      + intros [fa ca] [Hf Hc]. cbn [fst snd] in *. repeat sh_step p. apply (madd_sh _ p p); sh_side.
    - intros p s Hp (k & Hk & H). simpl. destruct k as [|k].
      + unfold sch_fac in H. open_conf H. destruct Hv1 as [Hz _]. destruct u2; [|discriminate].
        eexists _, _. split; [reflexivity|]. split.
        * unfold dict_set. cbn [mapM map fst snd tolist bind]. rewrite !np_array_A1. cbn. reflexivity.
        * right. eexists _, _, _, _, _, _. split; reflexivity.
      + destruct (dict_roundtrip (sch_fac (S k) p) p s H) as (j & E1 & E2).
        * repeat (apply Forall_cons || apply Forall_nil); simpl; auto; lia.
        * reflexivity.
        * exists j, s. repeat split; auto. now left.
    - intros s s' [<-|H].
      + destruct (eq_bisim (Factor (N := N)) s s eq_refl) as (H1 & H2). split; [|apply H2].
        intros P x. destruct (c_update Factor P s x); [now left|reflexivity].
      + destruct H as (p & n & m & v & r & b & -> & ->).
        split; [|split; [|split; [|split]]]; auto; [|intros; discriminate].
        intros P x. simpl.
        assert (Q : fac_update [("n_dim", VInt p); ("n_samples", VInt n); ("mean", VArr (A1 m)); ("var", VArr (A1 v));
           ("V", VArr (A2 [])); ("k", VInt 0); ("r", VNum r); ("n_burn", VInt b)] x =
           fac_update [("n_dim", VInt p); ("n_samples", VInt n); ("mean", VArr (A1 m)); ("var", VArr (A1 v));
            ("V", VArr (A1 [])); ("k", VInt 0); ("r", VNum r); ("n_burn", VInt b)] x) by reflexivity.
        rewrite Q. destruct (fac_update _ x); auto. now left.
    - intros p s j Hp (k & Hk & H) Hg. rewrite (schema_size_ok _ s j H Hg). unfold quadratic_budget, schema_size. cbn -[Nat.mul]. nia.
  Qed.
  Lemma Empirical_behaved : behaved (Empirical (N := N)).
  Proof. eexists _, _. apply Empirical_by. Qed.
  Lemma Diagonal_behaved : behaved (Diagonal (N := N)).
  Proof. eexists _, _. apply Diagonal_by. Qed.
  Lemma Adaptive_behaved : behaved (Adaptive L).
  Proof. eexists _, _. apply Adaptive_by. Qed.
  Lemma LedoitWolf_behaved : behaved (LedoitWolf (N := N)).
  Proof. eexists _, _. apply LedoitWolf_by. Qed.
  Lemma SchurLW_behaved : behaved (SchurLW L).
  Proof. eexists _, _. apply SchurLW_by. Qed.
  Lemma PartialMoments_behaved fuel : behaved (PartialMoments L fuel).
  Proof. eexists _, _. apply PartialMoments_by. Qed.
  Lemma Huber_behaved : behaved (Huber L).
  Proof. eexists _, _. apply Huber_by. Qed.
  Lemma Tyler_behaved : behaved (Tyler L).
  Proof. eexists _, _. apply Tyler_by. Qed.
  Lemma Geodesic_behaved : behaved (Geodesic L).
  Proof. eexists _, _. apply Geodesic_by. Qed.
  Lemma DCC_behaved : behaved (DCC (N := N)).
  Proof. eexists _, _. apply DCC_by. Qed.
  Lemma Factor_behaved : behaved (Factor (N := N)).
  Proof. eexists _, _. apply Factor_by. Qed.
  Lemma ewa_like_behaved name P diff (rr : P -> N) cov : (forall Pm, cov_sh sch_ewa (cov Pm)) ->
    behaved (dict_class (N := N) name P diff (fun p n => ewa_init n (rr p)) (fun _ => ewa_update) cov).
  Proof. intros H. eexists _, _. now apply ewa_like_by. Qed.
End Classes.

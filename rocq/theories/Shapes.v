(** * A small Hoare logic for [res], and the shape calculus of the array operations (law-free) *)
From Coq Require Import ZArith Bool String List Lia Arith.
From Verif Require Import Num Numpy PyVal LinalgModel ListLemmas.
Import ListNotations.

(** [m] either returns a value satisfying [Q] or raises an exception allowed by [E]. *)
Definition holds {A} (E : exn -> Prop) (Q : A -> Prop) (m : res A) : Prop :=
  match m with Ok a => Q a | Err e => E e end.

Lemma holds_bind {A B} E (Q : A -> Prop) (R : B -> Prop) m f :
  holds E Q m -> (forall a, Q a -> holds E R (f a)) -> holds E R (bind m f).
Proof. destruct m; simpl; auto. Qed.

Lemma holds_ok {A} E (Q : A -> Prop) a : Q a -> holds E Q (Ok a).
Proof. auto. Qed.

Lemma holds_mono {A} (E E' : exn -> Prop) (Q Q' : A -> Prop) m :
  holds E Q m -> (forall e, E e -> E' e) -> (forall a, Q a -> Q' a) -> holds E' Q' m.
Proof. destruct m; simpl; auto. Qed.

Lemma holds_ok_inv {A} E (Q : A -> Prop) m a : holds E Q m -> m = Ok a -> Q a.
Proof. intros H ->. exact H. Qed.

Lemma holds_mapM {A B} E (Q : B -> Prop) (f : A -> res B) l :
  (forall a, In a l -> holds E Q (f a)) ->
  holds E (fun r => length r = length l /\ Forall Q r) (mapM f l).
Proof.
  induction l as [|a l IH]; simpl; intros H; auto.
  eapply holds_bind; [apply H; auto|]. intros b Hb.
  eapply holds_bind; [apply IH; auto|]. intros bs [Hl Hbs]. simpl. split; auto.
Qed.

Section Shapes.
  Context {N : Num} (E : exn -> Prop).
  Notation vec := (vec N).
  Notation mat := (mat N).
  Notation vlen p := (fun v : vec => length v = p).

  Lemma bc_sh {A B D} (f : A -> B -> D) p a b :
    length a = p -> length b = p -> holds E (fun v => length v = p) (bc f a b).
  Proof. intros H1 H2. rewrite bc_eqlen by congruence. simpl. rewrite zipw_length; congruence. Qed.
  Lemma vadd_sh p (a b : vec) : length a = p -> length b = p -> holds E (vlen p) (vadd a b).
  Proof. apply bc_sh. Qed.
  Lemma vsub_sh p (a b : vec) : length a = p -> length b = p -> holds E (vlen p) (vsub a b).
  Proof. apply bc_sh. Qed.
  Lemma vmul_sh p (a b : vec) : length a = p -> length b = p -> holds E (vlen p) (vmul a b).
  Proof. apply bc_sh. Qed.
  Lemma vdiv_sh p (a b : vec) : length a = p -> length b = p -> holds E (vlen p) (vdiv a b).
  Proof. apply bc_sh. Qed.

  Lemma bc2_sh (f : N -> N -> N) p q (a b : mat) :
    is_mat p q a -> is_mat p q b -> holds E (is_mat p q) (bc2 f a b).
  Proof.
    intros Ha Hb. rewrite (is_mat_tab p q a n0 Ha), (is_mat_tab p q b n0 Hb), bc2_tab.
    apply is_mat_tab2.
  Qed.
  Lemma madd_sh p q (a b : mat) : is_mat p q a -> is_mat p q b -> holds E (is_mat p q) (madd a b).
  Proof. apply bc2_sh. Qed.
  Lemma msub_sh p q (a b : mat) : is_mat p q a -> is_mat p q b -> holds E (is_mat p q) (msub a b).
  Proof. apply bc2_sh. Qed.
  Lemma mmul_sh p q (a b : mat) : is_mat p q a -> is_mat p q b -> holds E (is_mat p q) (mmul a b).
  Proof. apply bc2_sh. Qed.
  Lemma mdiv_sh p q (a b : mat) : is_mat p q a -> is_mat p q b -> holds E (is_mat p q) (mdiv a b).
  Proof. apply bc2_sh. Qed.

  Lemma mmap_sh p q f (a : mat) : is_mat p q a -> is_mat p q (mmap f a).
  Proof.
    intros [H1 H2]. split; unfold mmap; [now rewrite map_length|].
    rewrite Forall_map. eapply Forall_impl; [|exact H2]. intros r Hr. now rewrite map_length.
  Qed.
  Lemma outer_sh p q (a b : vec) : length a = p -> length b = q -> is_mat p q (outer a b).
  Proof.
    intros H1 H2. split; unfold outer; [now rewrite map_length|].
    rewrite Forall_map. apply Forall_forall. intros. now rewrite map_length.
  Qed.
  Lemma ncols_sh p q (a : mat) : is_mat p q a -> 1 <= p -> ncols a = q.
  Proof.
    intros [H1 H2] Hp. destruct a as [|r a]; simpl in *; [lia|]. unfold ncols. simpl. now inversion H2.
  Qed.
  Lemma nrows_sh p q (a : mat) : is_mat p q a -> nrows a = p.
  Proof. now intros [H1 _]. Qed.
  Lemma transpose_sh p q (a : mat) : is_mat p q a -> 1 <= p -> is_mat q p (transpose a).
  Proof.
    intros H Hp. unfold transpose. rewrite (ncols_sh p q a H Hp), (nrows_sh p q a H).
    apply is_mat_tab2.
  Qed.
  Lemma matmul_sh p q r (a b : mat) :
    is_mat p q a -> is_mat q r b -> 1 <= p -> 1 <= q -> holds E (is_mat p r) (matmul a b).
  Proof.
    intros Ha Hb Hp Hq. unfold matmul.
    rewrite (ncols_sh p q a Ha Hp), (nrows_sh q r b Hb), Nat.eqb_refl. simpl.
    rewrite (ncols_sh q r b Hb Hq), (nrows_sh p q a Ha). apply is_mat_tab2.
  Qed.
  Lemma vecmat_sh p q (v : vec) (a : mat) :
    length v = p -> is_mat p q a -> 1 <= p -> holds E (vlen q) (vecmat v a).
  Proof.
    intros Hv Ha Hp. unfold vecmat. rewrite Hv, (nrows_sh p q a Ha), Nat.eqb_refl. simpl.
    now rewrite tab_length, (ncols_sh p q a Ha Hp).
  Qed.
  Lemma vdot_sh p (a b : vec) : length a = p -> length b = p -> holds E (fun _ => True) (vdot a b).
  Proof. intros H1 H2. unfold vdot. now rewrite H1, H2, Nat.eqb_refl. Qed.
  Lemma mdiag_sh p (v : vec) : length v = p -> is_mat p p (mdiag v).
  Proof. intros <-. apply is_mat_tab2. Qed.
  Lemma meye_sh p : is_mat p p (meye (N := N) p).
  Proof. apply is_mat_tab2. Qed.
  Lemma mzeros_sh p q : is_mat p q (mzeros (N := N) p q).
  Proof. apply is_mat_tab2. Qed.
  Lemma diagonal_sh p (a : mat) : is_mat p p a -> 1 <= p -> length (diagonal a) = p.
  Proof.
    intros H Hp. unfold diagonal. rewrite tab_length, (nrows_sh p p a H), (ncols_sh p p a H Hp). lia.
  Qed.
  Lemma to_symmetric_sh p (a : mat) : is_mat p p a -> 1 <= p -> holds E (is_mat p p) (to_symmetric a).
  Proof.
    intros H Hp. unfold to_symmetric. eapply holds_bind.
    - apply madd_sh; [exact H|now apply transpose_sh].
    - intros s Hs. now apply mmap_sh.
  Qed.
  Lemma cov_to_corrcoef_sh p (a : mat) :
    is_mat p p a -> 1 <= p -> holds E (is_mat p p) (cov_to_corrcoef a).
  Proof.
    intros H Hp. unfold cov_to_corrcoef. apply mdiv_sh; auto. split.
    - rewrite map_length. now apply diagonal_sh.
    - rewrite Forall_map. apply Forall_forall. intros. rewrite map_length. now apply diagonal_sh.
  Qed.
  Lemma rows_vmul_sh p q (V : mat) (l : vec) :
    is_mat p q V -> length l = q -> holds E (is_mat p q) (mapM (fun row => vmul row l) V).
  Proof.
    intros [H1 H2] Hl. eapply holds_mono; [apply (holds_mapM E (fun r => length r = q))| auto |].
    - intros row Hr. rewrite Forall_forall in H2. apply vmul_sh; auto.
    - intros r [Hr1 Hr2]. split; [exact (eq_trans Hr1 H1)|exact Hr2].
  Qed.
End Shapes.

(** LAPACK routines preserve shapes and raise only [LinAlgError] on square input.  (Contract.) *)
Record la_shapes {N : Num} (L : LinAlg N) : Prop := {
  las_inv : forall p a, is_mat p p a -> holds (fun e => e = LinAlgError) (is_mat p p) (la_inv L a);
  las_pinv : forall p a, is_mat p p a -> holds (fun e => e = LinAlgError) (is_mat p p) (la_pinv L a);
  las_eigh : forall p a, is_mat p p a ->
      holds (fun e => e = LinAlgError) (fun lv => length (fst lv) = p /\ is_mat p p (snd lv)) (la_eigh L a);
  las_svd : forall p a, is_mat p p a ->
      holds (fun e => e = LinAlgError)
            (fun usv => is_mat p p (fst (fst usv)) /\ length (snd (fst usv)) = p /\ is_mat p p (snd usv))
            (la_svd L a);
  las_cholesky : forall p a, is_mat p p a ->
      holds (fun e => e = LinAlgError) (is_mat p p) (la_cholesky L a);
  las_eigvals : forall p a, is_mat p p a ->
      holds (fun e => e = LinAlgError) (fun v => length v = p) (la_eigvals_re L a);
  las_solve : forall p q a b, is_mat p p a -> is_mat p q b ->
      holds (fun e => e = LinAlgError) (is_mat p q) (la_solve L a b);
}.

Section OracleShapes.
  Context {N : Num} (L : LinAlg N) (HL : la_shapes L) (E : exn -> Prop) (HE : E LinAlgError).

  Lemma affine_shrink_sh p (a : mat N) phi l : is_mat p p a -> 1 <= p -> holds E (is_mat p p) (affine_shrink a phi l).
  Proof.
    intros H Hp. unfold affine_shrink. rewrite (nrows_sh p p a H), (ncols_sh p p a H Hp).
    apply madd_sh; apply mmap_sh; [apply is_mat_tab2|apply meye_sh].
  Qed.

  Lemma try_invert_sh p (a : mat N) :
    is_mat p p a -> 1 <= p -> holds E (is_mat p p) (try_invert L a).
  Proof.
    intros H Hp. unfold try_invert.
    pose proof (las_inv L HL p a H) as H1. destruct (la_inv L a) as [m|e]; simpl in *; auto. subst e.
    pose proof (las_pinv L HL p a H) as H2. destruct (la_pinv L a) as [m|e]; simpl in *; auto. subst e.
    eapply holds_bind; [apply (affine_shrink_sh p); auto|].
    intros b Hb. eapply holds_mono; [apply (las_inv L HL p); exact Hb| |]; auto. now intros e ->.
  Qed.

  Lemma eigh_sh p a : is_mat p p a ->
    holds E (fun lv => length (fst lv) = p /\ is_mat p p (snd lv)) (la_eigh L a).
  Proof. intros H. eapply holds_mono; [apply (las_eigh L HL p); exact H| |]; auto. now intros e ->. Qed.

  Lemma make_pos_def_sh p a : is_mat p p a -> 1 <= p -> holds E (is_mat p p) (make_pos_def L a).
  Proof.
    intros H Hp. unfold make_pos_def. eapply holds_bind; [apply (to_symmetric_sh E p); assumption|].
    intros b Hb. eapply holds_bind; [apply (eigh_sh p); assumption|].
    intros [l V] [Hl HV]. cbn [fst snd] in *.
    eapply holds_bind; [apply (rows_vmul_sh E p p); [exact HV|rewrite map_length; exact Hl]|].
    intros VE HVE. eapply holds_bind; [apply (matmul_sh E p p p); try apply transpose_sh; assumption|].
    intros o Ho. apply (to_symmetric_sh E p); assumption.
  Qed.

  Lemma geodesic_step_sh p a b g :
    is_mat p p a -> is_mat p p b -> 1 <= p -> holds E (is_mat p p) (geodesic_step L a b g).
  Proof.
    intros Ha Hb Hp. unfold geodesic_step.
    eapply holds_bind; [apply (make_pos_def_sh p); assumption|]. intros s Hs.
    eapply holds_bind; [apply (make_pos_def_sh p); assumption|]. intros e He.
    eapply holds_bind; [apply (eigh_sh p); assumption|]. intros [l V] [Hl HV]. cbn [fst snd] in *.
    eapply holds_bind; [apply (rows_vmul_sh E p p); [exact HV|rewrite !map_length; assumption]|]. intros VS HVS.
    eapply holds_bind; [apply (matmul_sh E p p p); try apply transpose_sh; assumption|]. intros ss Hss.
    eapply holds_bind; [apply (rows_vmul_sh E p p); [exact HV|rewrite !map_length; assumption]|]. intros VI HVI.
    eapply holds_bind; [apply (matmul_sh E p p p); try apply transpose_sh; assumption|]. intros si Hsi.
    eapply holds_bind; [apply (matmul_sh E p p p); auto|]. intros m1 Hm1.
    eapply holds_bind; [apply (matmul_sh E p p p); auto|]. intros m2 Hm2.
    eapply holds_bind; [apply (to_symmetric_sh E p); assumption|]. intros mid Hmid.
    eapply holds_bind; [apply (eigh_sh p); assumption|]. intros [l2 V2] [Hl2 HV2]. cbn [fst snd] in *.
    eapply holds_bind; [apply (rows_vmul_sh E p p); [exact HV2|rewrite !map_length; assumption]|]. intros VM HVM.
    eapply holds_bind; [apply (matmul_sh E p p p); try apply transpose_sh; assumption|]. intros mp Hmp.
    eapply holds_bind; [apply (matmul_sh E p p p); auto|]. intros o1 Ho1.
    eapply holds_bind; [apply (matmul_sh E p p p); auto|]. intros o2 Ho2.
    apply (to_symmetric_sh E p); assumption.
  Qed.

  Lemma is_positive_def_sh p a : is_mat p p a -> holds E (fun _ => True) (is_positive_def L a).
  Proof.
    intros H. unfold is_positive_def. pose proof (las_cholesky L HL p a H) as H1.
    destruct (la_cholesky L a) as [m|e]; simpl in *; auto. now subst e.
  Qed.
End OracleShapes.

Section NpdShapes.
  Context {N : Num} (L : LinAlg N) (HL : la_shapes L) (E : exn -> Prop) (HE : E LinAlgError) (HF : E FuelExhausted).

  Lemma npd_loop_sh fuel p : 1 <= p -> forall k sp (a3 : mat N), is_mat p p a3 ->
    holds E (is_mat p p) (npd_loop L fuel k sp (meye p) a3).
  Proof.
    intros Hp. induction fuel as [|fuel IH]; intros k sp a3 Ha; cbn [npd_loop];
      (eapply holds_bind; [apply (is_positive_def_sh L HL E p); exact Ha|]); intros [|] _; simpl; auto.
    eapply holds_bind with (Q := fun v => length v = p).
    { eapply holds_mono; [apply (las_eigvals L HL p); exact Ha| |]; auto. now intros e ->. }
    intros ev Hev. eapply holds_bind with (Q := fun _ => True).
    { destruct ev; simpl in *; [lia|auto]. }
    intros me _. eapply holds_bind; [apply (madd_sh E p p); [exact Ha|apply mmap_sh, meye_sh]|].
    intros a3' Ha'. now apply IH.
  Qed.

  Lemma nearest_pos_def_sh p fuel (a : mat N) : is_mat p p a -> 1 <= p ->
    holds E (is_mat p p) (nearest_pos_def L fuel a).
  Proof.
    intros Ha Hp. unfold nearest_pos_def.
    eapply holds_bind; [apply (to_symmetric_sh E p); assumption|]. intros b Hb.
    eapply holds_bind.
    { eapply holds_mono; [apply (las_svd L HL p); exact Hb| |intros x Hx; exact Hx]. now intros e ->. }
    intros [[U s] V] (HU & Hs & HV). cbn [fst snd] in *.
    eapply holds_bind; [apply (matmul_sh E p p p); [apply transpose_sh; assumption|now apply mdiag_sh|auto|auto]|].
    intros VD HVD. eapply holds_bind; [apply (matmul_sh E p p p); auto|]. intros H HH.
    eapply holds_bind; [apply (madd_sh E p p); assumption|]. intros bH HbH.
    eapply holds_bind; [apply (to_symmetric_sh E p); [apply mmap_sh; assumption|auto]|]. intros a3 Ha3.
    eapply holds_bind; [apply (is_positive_def_sh L HL E p); exact Ha3|]. intros [|] _; [exact Ha3|].
    rewrite (nrows_sh p p a Ha). now apply npd_loop_sh.
  Qed.
End NpdShapes.


(** ** Shapes of state dicts *)
Inductive kind := KInt | KDim (n : nat) | KNum | KVec (p : nat) | KMat (p q : nat) | KTen (a p q : nat).
Definition has_kind {N} (k : kind) (v : pyval N) : Prop :=
  match k, v with
  | KInt, VInt _ => True
  | KDim n, VInt m => m = n
  | KNum, VNum _ => True
  | KVec p, VArr (A1 v) => length v = p
  | KMat p q, VArr (A2 m) => is_mat p q m
  | KTen a p q, VArr (A3 t) => length t = a /\ Forall (is_mat p q) t
  | _, _ => False
  end.
Definition conforms {N} (sch : list (string * kind)) (s : dict N) : Prop :=
  Forall2 (fun a b => fst a = fst b /\ has_kind (snd a) (snd b)) sch s.
(** Kinds whose JSON form determines them: no empty axis in front of another. *)
Definition kind_json (k : kind) : Prop :=
  match k with KMat p _ => 1 <= p | KTen a p _ => 1 <= a /\ 1 <= p | _ => True end.

Lemma all_some_map {A B} (f : A -> option B) (g : B -> A) (l : list B) :
  (forall b, f (g b) = Some b) -> all_some (map f (map g l)) = Some l.
Proof. intros H. induction l as [|b l IH]; simpl; auto. now rewrite H, IH. Qed.

Lemma same_len_Forall {A} q (m : list (list A)) : Forall (fun r => length r = q) m -> same_len m = true.
Proof.
  destruct m as [|r m]; simpl; auto. intros H. inversion H as [|? ? Hr Hm]; subst.
  apply forallb_forall. intros s Hs. rewrite Forall_forall in Hm. rewrite (Hm s Hs). apply Nat.eqb_refl.
Qed.

Lemma np_array_A1 {N} (v : vec N) : np_array (map JNum v) = Ok (A1 v).
Proof. unfold np_array. now rewrite all_some_map. Qed.

Lemma j_mat_roundtrip {N} q (m : mat N) :
  Forall (fun r => length r = q) m -> j_mat (JList (map (fun r => JList (map JNum r)) m)) = Some m.
Proof.
  intros H. unfold j_mat. rewrite all_some_map.
  - now rewrite (same_len_Forall q).
  - intros b. simpl. now apply all_some_map.
Qed.

Lemma np_array_A2 {N} p q (m : mat N) :
  is_mat p q m -> 1 <= p -> np_array (map (fun r => JList (map JNum r)) m) = Ok (A2 m).
Proof.
  intros [H1 H2] Hp. unfold np_array.
  destruct m as [|r m]; [simpl in H1; lia|].
  replace (all_some (map j_num (map (fun r0 => JList (map JNum r0)) (r :: m)))) with (@None (list N)) by reflexivity.
  now rewrite (j_mat_roundtrip q).
Qed.

Lemma j_ten_roundtrip {N} p q (t : list (mat N)) :
  Forall (is_mat p q) t ->
  all_some (map j_mat (map (fun m => JList (map (fun r => JList (map JNum r)) m)) t)) = Some t.
Proof.
  intros H. induction H as [|x l Hx Hl IH]; auto. cbn [map all_some].
  rewrite (j_mat_roundtrip q) by apply Hx. now rewrite IH.
Qed.

Lemma np_array_A3 {N} a p q (t : list (mat N)) :
  length t = a -> Forall (is_mat p q) t -> 1 <= a -> 1 <= p ->
  np_array (map (fun m => JList (map (fun r => JList (map JNum r)) m)) t) = Ok (A3 t).
Proof.
  intros H1 H2 Ha Hp. unfold np_array.
  destruct t as [|m t]; [simpl in H1; lia|].
  set (g := fun m0 : mat N => JList (map (fun r => JList (map JNum r)) m0)).
  replace (all_some (map j_num (map g (m :: t)))) with (@None (list N)) by reflexivity.
  assert (Hm : exists r m', m = r :: m').
  { inversion H2 as [|? ? [Hm1 _] _]; subst. destruct m; [simpl in Hp; lia|eauto]. }
  destruct Hm as (r & m' & ->).
  replace (j_mat (JList (map g ((r :: m') :: t)))) with (@None (mat N)) by reflexivity.
  subst g. rewrite (j_ten_roundtrip p q) by exact H2.
  rewrite (same_len_Forall p) by (eapply Forall_impl; [|exact H2]; intros x Hx; apply Hx).
  rewrite (same_len_Forall q); auto.
  clear - H2. revert H2. generalize ((r :: m') :: t). intros l0 H2.
  induction H2 as [|x l1 Hx Hl IH]; simpl; auto. apply Forall_app. split; auto. apply Hx.
Qed.

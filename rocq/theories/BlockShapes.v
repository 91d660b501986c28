(** * BlockCovariance: block geometry, state shapes, checkpoint round trip; all classes together *)
From Coq Require Import ZArith Bool String List Lia Arith.
From Verif Require Import Num Numpy PyVal LinalgModel StateModel BaseModel Estimators RegistryModel
  Spec ListLemmas BaseProofs Shapes ClassShapes.
Import ListNotations.
Local Open Scope string_scope.

(** ** numpy's array_split *)
Lemma list_sum_repeat a n : list_sum (repeat a n) = n * a.
Proof. induction n as [|n IH]; simpl; auto. Qed.

Lemma split_sizes_spec p nb sz :
  split_sizes p nb = Ok sz ->
  (0 < nb)%Z /\ length sz = Z.to_nat nb /\ list_sum sz = p /\
  (forall x, In x sz -> x = p / Z.to_nat nb \/ x = S (p / Z.to_nat nb)).
Proof.
  unfold split_sizes. destruct (Z.leb_spec nb 0); [discriminate|]. intros [= <-].
  set (k := Z.to_nat nb). assert (Hk : k <> 0) by lia.
  pose proof (Nat.mod_upper_bound p k Hk). pose proof (Nat.div_mod p k Hk).
  split; [lia|]. split; [|split].
  - rewrite app_length, !repeat_length. lia.
  - rewrite list_sum_app, !list_sum_repeat. nia.
  - intros x Hx. apply in_app_or in Hx. destruct Hx as [Hx|Hx]; apply repeat_spec in Hx; auto.
Qed.

Lemma split_sizes_pos p nb sz :
  split_sizes p nb = Ok sz -> (nb <= Z.of_nat p)%Z -> Forall (fun x => 1 <= x) sz.
Proof.
  intros H Hp. destruct (split_sizes_spec _ _ _ H) as (H1 & H2 & H3 & H4).
  apply Forall_forall. intros x Hx.
  assert (1 <= p / Z.to_nat nb) by (apply Nat.div_le_lower_bound; lia).
  destruct (H4 x Hx); lia.
Qed.

Lemma bounds_spec a sz :
  Forall (fun x => 1 <= x) sz ->
  Forall (fun ab => a <= fst ab /\ fst ab < snd ab /\ snd ab <= a + list_sum sz) (bounds a sz).
Proof.
  intros H. revert a. induction H as [|x sz Hx H IH]; intros a; simpl; constructor.
  - simpl. lia.
  - eapply Forall_impl; [|apply IH]. simpl. intros. lia.
Qed.

Lemma slices_spec nb p sl :
  1 <= p -> slices nb p = Ok sl -> Forall (fun ab => fst ab < snd ab /\ snd ab <= p) sl.
Proof.
  intros Hp. unfold slices. destruct (split_sizes p _) as [sz|] eqn:E; [|discriminate].
  intros [= <-]. pose proof (split_sizes_pos _ _ _ E ltac:(lia)) as H.
  destruct (split_sizes_spec _ _ _ E) as (_ & _ & Hs & _).
  eapply Forall_impl; [|apply (bounds_spec 0 sz H)]. simpl. intros. lia.
Qed.

Lemma bounds_sum a sz : list_sum (map (fun ab => snd ab - fst ab) (bounds a sz)) = list_sum sz.
Proof.
  revert a. induction sz as [|x sz IH]; intros a; auto. cbn [bounds map list_sum fold_right fst snd]. unfold list_sum in *. rewrite IH. lia.
Qed.
Lemma slices_sum nb p sl : slices nb p = Ok sl -> list_sum (map (fun ab => snd ab - fst ab) sl) = p.
Proof.
  unfold slices. destruct (split_sizes p _) as [sz|] eqn:E; [|discriminate]. intros [= <-].
  rewrite bounds_sum. now destruct (split_sizes_spec _ _ _ E) as (_ & _ & Hs & _).
Qed.

Section Block.
  Context {N : Num} (L : LinAlg N) (HL : la_shapes L).
  Notation vec := (vec N).
  Notation dict := (dict N).

  Definition canon (d n : nat) (r : N) (b : nat) (m : vec) (c : mat N) : dict :=
    [("n_dim", VInt d); ("n_samples", VInt n); ("mean", VArr (A1 m)); ("cov", VArr (A2 c));
     ("r", VNum r); ("n_burn", VInt b)].

  Lemma ewa_update_canon d n r b m c (x : vec) :
    1 <= d -> length m = d -> is_mat d d c -> length x = d ->
    exists m' c', ewa_update (canon d n r b m c) x = Ok (canon d (S n) r b m' c') /\
                  length m' = d /\ is_mat d d c'.
  Proof.
    intros Hd Hm Hc Hx.
    assert (H : holds (fun _ => False) (fun s' => exists m' c', s' = canon d (S n) r b m' c' /\
                  length m' = d /\ is_mat d d c') (ewa_update (canon d n r b m c) x)).
    { unfold ewa_update, canon. red_get. destruct (Nat.ltb _ _).
      - eapply holds_bind; [eapply (emp_update_sh _ d); first [reflexivity|eassumption]|].
        intros s' (m' & c' & H1 & H2 & ->). red_get. simpl. eauto.
      - repeat sh_step d. simpl. eauto. }
    destruct (ewa_update _ x); simpl in H; [|contradiction].
    destruct H as (m' & c' & -> & H1 & H2). eauto.
  Qed.

  Definition sub_ok (n : nat) (r : N) (b : nat) (sub : dict) (ab : nat * nat) : Prop :=
    exists m c, sub = canon (snd ab - fst ab) n r b m c /\ length m = snd ab - fst ab /\
                is_mat (snd ab - fst ab) (snd ab - fst ab) c.
  Definition blk_wf (p : nat) (s : blk_state) : Prop :=
    b_dim s = p /\ Forall (fun ab => fst ab < snd ab /\ snd ab <= p) (b_slices s) /\
    Forall2 (sub_ok (b_n s) (b_r s) (b_burn s)) (b_subs s) (b_slices s) /\
    list_sum (map (fun ab => snd ab - fst ab) (b_slices s)) = p.

  Definition deq (a b : dict) : Prop := forall k, dget k a = dget k b.
  Definition blk_eq (s s' : blk_state) : Prop :=
    b_dim s = b_dim s' /\ b_n s = b_n s' /\ b_r s = b_r s' /\ b_burn s = b_burn s' /\
    b_slices s = b_slices s' /\ Forall2 deq (b_subs s) (b_subs s').

  Lemma deq_getI a b k : deq a b -> getI k a = getI k b.
  Proof. intros H. unfold getI. now rewrite H. Qed.
  Lemma deq_getN a b k : deq a b -> getN k a = getN k b.
  Proof. intros H. unfold getN. now rewrite H. Qed.
  Lemma deq_getV a b k : deq a b -> getV k a = getV k b.
  Proof. intros H. unfold getV. now rewrite H. Qed.
  Lemma deq_getM a b k : deq a b -> getM k a = getM k b.
  Proof. intros H. unfold getM. now rewrite H. Qed.

  Lemma ewa_update_deq a b x : deq a b -> ewa_update a x = ewa_update b x.
  Proof.
    intros H. unfold ewa_update, emp_update.
    now rewrite !(deq_getI _ _ _ H), !(deq_getN _ _ _ H), !(deq_getV _ _ _ H), !(deq_getM _ _ _ H).
  Qed.

  Lemma zipM_Forall2 {A B D} (f : A -> B -> res D) (Q : D -> B -> Prop) a b (R : A -> B -> Prop) :
    Forall2 R a b -> (forall x y, R x y -> In y b -> exists d, f x y = Ok d /\ Q d y) ->
    exists ds, zipM f a b = Ok ds /\ Forall2 Q ds b.
  Proof.
    intros H. induction H as [|x y a b Hxy H IH]; intros Hf.
    - exists []. split; auto.
    - destruct (Hf x y Hxy (or_introl eq_refl)) as (d & E & Hd).
      destruct IH as (ds & Es & Hds). { intros. apply Hf; simpl; auto. }
      exists (d :: ds). simpl. rewrite E. simpl. rewrite Es. auto.
  Qed.

  Lemma zipM_deq {B D} (f : dict -> B -> res D) a a' (b : list B) :
    Forall2 deq a a' -> (forall x x' y, deq x x' -> f x y = f x' y) -> zipM f a b = zipM f a' b.
  Proof.
    intros H Hf. revert b. induction H as [|x x' a a' Hx H IH]; intros b; auto.
    destruct b as [|y b]; auto. simpl. rewrite (Hf x x' y Hx), IH. reflexivity.
  Qed.
  Lemma Forall2_deq_refl l : Forall2 deq l l.
  Proof. induction l; constructor; auto. intros k. reflexivity. Qed.

  Lemma blk_bisim : state_bisim (Block L) blk_eq.
  Proof.
    intros s s' (H1 & H2 & H3 & H4 & H5 & H6). split; [|split; [|split; [|split]]].
    - intros P x. simpl. unfold blk_update. rewrite H5.
      rewrite (zipM_deq _ (b_subs s) (b_subs s') _ H6).
      2:{ intros a a' ab Ha. now apply ewa_update_deq. }
      destruct (zipM _ _ _); simpl; auto.
      repeat split; simpl; auto. apply Forall2_deq_refl.
    - intros P. simpl. unfold blk_cov. rewrite H5, H1.
      rewrite (zipM_deq _ (b_subs s) (b_subs s') _ H6); auto.
      intros a a' ab Ha. unfold pd_block. now rewrite (deq_getM _ _ _ Ha).
    - intros P. simpl. unfold blk_mean. rewrite H5, H1.
      rewrite (zipM_deq _ (b_subs s) (b_subs s') _ H6); auto.
      intros a a' ab Ha. now rewrite (deq_getV _ _ _ Ha).
    - simpl. now rewrite H2.
    - intros f P [= <-]. unfold blk_prec. rewrite H5, H1.
      rewrite (zipM_deq _ (b_subs s) (b_subs s') _ H6); auto.
      intros a a' ab Ha. unfold pd_block. now rewrite (deq_getM _ _ _ Ha).
  Qed.

  Lemma Forall2_in_r {A B} (R : A -> B -> Prop) a b : Forall2 R a b ->
    forall (Q : B -> Prop), Forall Q b -> Forall2 (fun x y => R x y /\ Q y) a b.
  Proof.
    intros H Q HQ. induction H; constructor; inversion HQ; subst; auto.
  Qed.

  Lemma In_slice {A} a b (l : list A) x : In x (slice a b l) -> In x l.
  Proof.
    unfold slice. intros Hr. rewrite <- (firstn_skipn a l). apply in_or_app. right.
    rewrite <- (firstn_skipn (b - a) (skipn a l)). apply in_or_app. now left.
  Qed.
  Lemma mslice_sh p q (R : mat N) a b c d : is_mat p q R -> b <= p -> d <= q ->
    is_mat (b - a) (d - c) (mslice R a b c d).
  Proof.
    intros [H1 H2] Hb Hd. split; unfold mslice.
    - rewrite map_length. apply slice_length. now rewrite H1.
    - rewrite Forall_map. apply Forall_forall. intros r Hr.
      apply slice_length. rewrite Forall_forall in H2. replace (length r) with q; [lia|]. symmetry. apply H2.
      now apply In_slice in Hr.
  Qed.
  Lemma zipw_app_sh n a k (g h : mat N) : is_mat n a g -> is_mat n k h ->
    is_mat n (a + k) (zipw (fun x y => (x ++ y)%list) g h).
  Proof.
    intros [G1 G2] [H1 H2]. subst n. split; [rewrite zipw_length; congruence|].
    revert h H1 H2. induction G2 as [|x g Hx G2 IH]; intros [|y h] H1 H2; try discriminate; simpl; constructor.
    - rewrite app_length. inversion H2; subst. reflexivity.
    - apply IH; [simpl in H1; lia|now inversion H2].
  Qed.
  Lemma grow_sh a k (g br bl c : mat N) : is_mat a a g -> is_mat a k br -> is_mat k a bl -> is_mat k k c ->
    is_mat (a + k) (a + k) (grow g br bl c).
  Proof.
    intros H1 H2 H3 H4. unfold grow.
    destruct (zipw_app_sh a a k g br H1 H2) as [A1 A2]. destruct (zipw_app_sh k a k bl c H3 H4) as [B1 B2].
    split; [rewrite app_length; congruence|]. apply Forall_app. split; assumption.
  Qed.

  Lemma sc_block_sh p (R : mat N) g ne G a b :
    1 <= a -> a < b -> b <= p -> is_mat p p R -> is_mat a a G ->
    holds (fun _ => True) (is_mat b b) (sc_block L R g ne G (a, b)).
  Proof.
    intros Ha Hab Hb HR HG. unfold sc_block. cbn [fst snd].
    pose proof (mslice_sh p p R 0 a 0 a HR ltac:(lia) ltac:(lia)) as Rcc. rewrite !Nat.sub_0_r in Rcc.
    pose proof (mslice_sh p p R 0 a a b HR ltac:(lia) ltac:(lia)) as Rck. rewrite !Nat.sub_0_r in Rck.
    pose proof (mslice_sh p p R a b a b HR ltac:(lia) ltac:(lia)) as Rkk.
    set (k := b - a) in *. assert (Hk : 1 <= k) by lia.
    eapply holds_bind.
    { apply (madd_sh _ a a); apply mmap_sh; [exact Rcc|]. apply mdiag_sh. now apply diagonal_sh. }
    intros rg Hrg. eapply holds_bind; [apply (madd_sh _ a a); [exact Hrg|apply mmap_sh, meye_sh]|].
    intros lhs Hlhs.
    eapply holds_bind.
    { eapply holds_mono; [apply (las_solve L HL a k); [exact Hlhs|exact Rck]|auto|intros x Hx; exact Hx]. }
    intros bb Hbb. eapply holds_bind; [apply (matmul_sh _ k a k); [now apply transpose_sh|exact Hbb|auto|auto]|].
    intros cb Hcb. eapply holds_bind; [apply (msub_sh _ k k); assumption|]. intros rc Hrc.
    eapply holds_bind; [apply (to_symmetric_sh _ k); assumption|]. intros rcs Hrcs.
    eapply holds_bind; [apply (make_pos_def_sh L HL _ I k); assumption|]. intros S_ HS.
    eapply holds_bind; [apply (madd_sh _ k k); apply mmap_sh; assumption|]. intros Sg HSg.
    assert (Hbg : is_mat a k (mscale g bb)) by now apply mmap_sh.
    eapply holds_bind; [apply (matmul_sh _ k a a); [now apply transpose_sh|exact HG|auto|auto]|]. intros lo Hlo.
    eapply holds_bind; [apply (matmul_sh _ k a k); auto|]. intros lb Hlb.
    eapply holds_bind; [apply (madd_sh _ k k); assumption|]. intros co Hco. simpl.
    replace b with (a + k) by lia. apply grow_sh; try assumption. now apply transpose_sh.
  Qed.

  Lemma sc_fold_sh p (R : mat N) g ne sz : forall a G,
    1 <= a -> Forall (fun x => 1 <= x) sz -> a + list_sum sz <= p -> is_mat p p R -> is_mat a a G ->
    holds (fun _ => True) (is_mat (a + list_sum sz) (a + list_sum sz)) (foldM (sc_block L R g ne) G (bounds a sz)).
  Proof.
    induction sz as [|x sz IH]; intros a G Ha Hsz Hp HR HG.
    - simpl. now rewrite Nat.add_0_r.
    - cbn [bounds foldM]. inversion Hsz as [|? ? Hx Hsz']; subst. cbn [list_sum fold_right] in *.
      change (fold_right Nat.add 0 sz) with (list_sum sz) in *.
      eapply holds_bind; [apply (sc_block_sh p); try assumption; lia|]. intros G' HG'.
      rewrite Nat.add_assoc. apply IH; try assumption; lia.
  Qed.

  Lemma sc_cov_sh P : cov_sh sch_ewa (sc_cov L P).
  Proof.
    intros p s Hp H. unfold sch_ewa, sch_emp in H. cbn [app] in H. open_conf H. unfold sc_cov. red_get.
    rewrite (nrows_sh p p _ Hv0).
    unfold slices. destruct (split_sizes p _) as [sz|] eqn:Es; simpl; auto.
    pose proof (split_sizes_pos _ _ _ Es ltac:(lia)) as Hpos.
    destruct (split_sizes_spec _ _ _ Es) as (_ & Hlen & Hsum & _).
    eapply holds_bind; [apply (cov_to_corrcoef_sh _ p); assumption|]. intros R HR.
    eapply holds_bind with (Q := fun _ => True). { destruct (sc_n_eff _); simpl; auto. } intros ne _.
    eapply holds_bind with (Q := fun _ => True). { destruct (sc_gamma_star _ _ _); simpl; auto. } intros g _.
    destruct sz as [|x sz]; [simpl; auto|]. cbn [bounds]. pose proof (Forall_inv Hpos) as Hx. pose proof (Forall_inv_tail Hpos) as Hpos'. cbv beta in Hx.
    cbn [list_sum fold_right] in Hsum. change (fold_right Nat.add 0 sz) with (list_sum sz) in Hsum.
    pose proof (mslice_sh p p R 0 x 0 x HR ltac:(lia) ltac:(lia)) as HG. rewrite !Nat.sub_0_r in HG.
    eapply holds_bind with (Q := is_mat p p).
    { rewrite <- Hsum. apply (sc_fold_sh p); try assumption; lia. }
    intros Rg HRg. eapply holds_bind; [apply (to_symmetric_sh _ p); assumption|]. intros Rs HRs.
    eapply holds_bind; [apply (make_pos_def_sh L HL _ I p); assumption|]. intros Rp HRp.
    apply (mmul_sh _ p p); [assumption|]. apply outer_sh; apply map_len; now apply diagonal_sh.
  Qed.

  Lemma assemble_sh p (l : list ((nat * nat) * mat N)) : holds (fun _ => True) (is_mat p p) (assemble p l).
  Proof. unfold assemble. destruct (forallb _ _); simpl; auto. apply is_mat_tab2. Qed.

  (** The size of a checkpoint: four scalars, and two bounds, a mean and a covariance per block. *)
  Lemma blk_size p s j : blk_wf p s -> blk_get s = Ok j ->
    state_size j = 4 + list_sum (map (fun ab => 2 + (snd ab - fst ab) + (snd ab - fst ab) * (snd ab - fst ab)) (b_slices s)).
  Proof.
    intros (_ & _ & H & _) Hg. unfold blk_get in Hg.
    assert (Q : exists means covs,
      mapM (fun sub => m <- getV "mean" sub ;; Ok (tolist (A1 m))) (b_subs s) = Ok means /\
      mapM (fun sub => c <- getM "cov" sub ;; Ok (tolist (A2 c))) (b_subs s) = Ok covs /\
      list_sum (map json_size means) = list_sum (map (fun ab => snd ab - fst ab) (b_slices s)) /\
      list_sum (map json_size covs) = list_sum (map (fun ab => (snd ab - fst ab) * (snd ab - fst ab)) (b_slices s))).
    { clear Hg. induction H as [|sub ab subs sl (m & c & -> & Hm & Hc) H (means & covs & E1 & E2 & E3 & E4)].
      - exists [], []. auto.
      - exists (tolist (A1 m) :: means), (tolist (A2 c) :: covs). cbn [mapM]. rewrite E1, E2. unfold canon. red_get.
        split; [reflexivity|]. split; [reflexivity|]. cbn [map tolist json_size].
        unfold list_sum in *. cbn [fold_right]. rewrite E3, E4. split; f_equal.
        + rewrite <- Hm. apply json_size_vec.
        + exact (json_size_mat _ _ c Hc). }
    destruct Q as (means & covs & E1 & E2 & E3 & E4). rewrite E1 in Hg. cbn [bind] in Hg. rewrite E2 in Hg. cbn [bind] in Hg.
    injection Hg as <-. unfold state_size. cbn [map snd json_size list_sum fold_right]. change (fold_right Nat.add 0) with list_sum.
    rewrite E3, E4, map_map. cbn [json_size map list_sum fold_right].
    clear. induction (b_slices s) as [|ab l IH]; auto. cbn [map list_sum fold_right] in *. unfold list_sum in *. lia.
  Qed.

  Lemma Block_behaved_by : behaved_by (Block L) blk_wf blk_eq.
  Proof.
    split.
    - intros P p s Hp. simpl. unfold blk_init. intros H.
      apply bind_ok in H. destruct H as (sl & Hsl & H).
      apply bind_ok in H. destruct H as (nb & Hnb & H).
      apply bind_ok in H. destruct H as (subs & Hsubs & H). injection H as <-.
      split; [|reflexivity].
      pose proof (slices_spec _ _ _ Hp Hsl) as Hb. split; [reflexivity|]. split; [exact Hb|].
      split; [|exact (slices_sum _ _ _ Hsl)]. simpl.
      clear Hsl. revert subs Hsubs. induction Hb as [|ab sl Hab Hb IH]; intros subs Hsubs; simpl in Hsubs.
      + injection Hsubs as <-. constructor.
      + apply bind_ok in Hsubs. destruct Hsubs as (s1 & E1 & Hsubs).
        apply bind_ok in Hsubs. destruct Hsubs as (ss & E2 & Hsubs). injection Hsubs as <-.
        constructor; auto. unfold ewa_init in E1. rewrite Hnb in E1. simpl in E1. injection E1 as <-.
        eexists _, _. split; [reflexivity|]. split; [apply tab_length|apply is_mat_tab2].
    - intros P p s x s' Hp (H1 & H2 & H3 & H4) Hx Hu. simpl in Hu. unfold blk_update in Hu.
      destruct (zipM_Forall2 (fun sub ab => ewa_update sub (slice (fst ab) (snd ab) x))
                  (sub_ok (S (b_n s)) (b_r s) (b_burn s)) (b_subs s) (b_slices s) _ H3) as (ds & Es & Hds).
      { intros sub ab (m & c & -> & Hm & Hc) Hin. rewrite Forall_forall in H2. destruct (H2 ab Hin).
        destruct (ewa_update_canon (snd ab - fst ab) (b_n s) (b_r s) (b_burn s) m c
                    (slice (fst ab) (snd ab) x)) as (m' & c' & E & Hm' & Hc'); auto.
        - lia.
        - apply slice_length. rewrite Hx. lia.
        - eexists; split; [exact E|]. exists m', c'. auto. }
      rewrite Es in Hu. simpl in Hu. injection Hu as <-. split.
      + repeat split; auto.
      + simpl. eauto.
    - intros P p s Hp (H1 & H2 & H3 & H4). simpl. unfold blk_mean.
      destruct (zipM_Forall2 (fun sub ab => m <- getV "mean" sub ;; Ok (ab, m))
                 (fun d ab => fst d = ab /\ length (snd d) = snd ab - fst ab) (b_subs s) (b_slices s) _ H3)
        as (ds & Es & Hds).
      { intros sub ab (m & c & -> & Hm & Hc) _. unfold canon. red_get. eexists; split; [reflexivity|]. auto. }
      rewrite Es. simpl.
      assert (F : forallb (fun e => Nat.eqb (length (snd e)) (snd (fst e) - fst (fst e))) ds = true).
      { clear -Hds. induction Hds as [|[d v] ab ds sl [Hd1 Hd2] Hds IH]; [reflexivity|].
        cbn [forallb fst snd] in *. subst d. rewrite IH.
        replace (length v) with (snd ab - fst ab). now rewrite Nat.eqb_refl. }
      rewrite F. eexists; split; [reflexivity|]. now rewrite tab_length.
    - intros P p s Hp (H1 & H2 & H3 & H4). cbn [c_cov Block]. unfold blk_cov.
      eapply holds_bind with (Q := fun _ => True). { destruct (zipM _ _ _); simpl; auto. }
      intros l _. rewrite H1. apply assemble_sh.
    - intros p s Hp (H1 & H2 & H3 & H4). clear H4. simpl.
      set (ms := fun sub : dict => m <- getV "mean" sub ;; Ok (tolist (A1 m))).
      set (cs := fun sub : dict => c <- getM "cov" sub ;; Ok (tolist (A2 c))).
      assert (Q : exists means covs,
                 mapM ms (b_subs s) = Ok means /\ mapM cs (b_subs s) = Ok covs /\
                 exists subs', zip3M (fun ab m c =>
                     ma <- as_array m ;; ca <- as_array c ;;
                     Ok [("n_dim", VInt (snd ab - fst ab)); ("n_samples", VInt (b_n s)); ("r", VNum (b_r s));
                         ("n_burn", VInt (b_burn s)); ("mean", VArr ma); ("cov", VArr ca)])
                   (b_slices s) means covs = Ok subs' /\ Forall2 deq (b_subs s) subs').
      { revert H2. induction H3 as [|sub ab subs sl (m & c & -> & Hm & Hc) H3 IH]; intros H2.
        - exists [], []. repeat split; auto. exists []. split; auto.
        - inversion H2 as [|? ? Hab H2']; subst.
          destruct (IH H2') as (means & covs & E1 & E2 & subs' & E3 & Hd).
          exists (tolist (A1 m) :: means), (tolist (A2 c) :: covs).
          cbn [mapM]. rewrite E1, E2.
          replace (ms (canon (snd ab - fst ab) (b_n s) (b_r s) (b_burn s) m c)) with (Ok (tolist (A1 m))) by reflexivity.
          replace (cs (canon (snd ab - fst ab) (b_n s) (b_r s) (b_burn s) m c)) with (Ok (tolist (A2 c))) by reflexivity.
          cbn [bind]. split; [reflexivity|]. split; [reflexivity|].
          cbn [zip3M]. unfold tolist at 1 2, as_array at 1 2.
          rewrite np_array_A1, (np_array_A2 _ _ _ Hc) by lia. cbn [bind]. rewrite E3. cbn [bind].
          eexists. split; [reflexivity|]. constructor; auto.
          intros k. unfold canon. cbn [dget].
          destruct (String.eqb_spec k "n_dim"); [subst; reflexivity|].
          destruct (String.eqb_spec k "n_samples"); [subst; reflexivity|].
          destruct (String.eqb_spec k "mean"); [subst; reflexivity|].
          destruct (String.eqb_spec k "cov"); [subst; reflexivity|].
          destruct (String.eqb_spec k "r"); [subst; reflexivity|].
          destruct (String.eqb_spec k "n_burn"); [subst; reflexivity|]. reflexivity. }
      destruct Q as (means & covs & E1 & E2 & subs' & E3 & Hd).
      eexists _, (mkBlk (b_dim s) (b_n s) (b_r s) (b_burn s) (b_slices s) subs'). split; [|split].
      + unfold blk_get. fold ms cs. rewrite E1, E2. reflexivity.
      + unfold blk_set. cbn [jgetI jgetN jgetL dget String.eqb Ascii.eqb Bool.eqb bind].
        rewrite mapM_map. rewrite (mapM_all_ok _ (fun ab => ab)) by (intros [a b] _; reflexivity).
        rewrite map_id. cbn [bind]. rewrite E3. cbn [bind]. now rewrite H1.
      + repeat split; auto.
    - apply blk_bisim.
    - intros p s j Hp Hw Hg. pose proof (blk_size p s j Hw Hg) as E. unfold quadratic_budget. destruct Hw as (_ & Hb & _ & Hs).
      assert (Q : forall l, Forall (fun ab => fst ab < snd ab /\ snd ab <= p) l ->
        list_sum (map (fun ab => 2 + (snd ab - fst ab) + (snd ab - fst ab) * (snd ab - fst ab)) l) <=
        (3 + p) * list_sum (map (fun ab => snd ab - fst ab) l)).
      { clear. intros l H. induction H as [|ab l Hab H IH]; [cbn; lia|]. cbn [map]. unfold list_sum in *. cbn [fold_right].
        set (b := snd ab - fst ab) in *. assert (1 <= b <= p) by lia.
        assert (2 + b + b * b <= (3 + p) * b) by nia. lia. }
      specialize (Q _ Hb). rewrite Hs in Q. nia.
  Qed.
  Lemma Block_behaved : behaved (Block L).
  Proof. exists blk_wf, blk_eq. exact Block_behaved_by. Qed.

  (** All seventeen registered classes. *)
  Theorem registry_behaved fuel k : In k (registry L fuel) -> behaved (rg_class k).
  Proof.
    unfold registry. cbn [In]. intros H.
    repeat (destruct H as [<-|H]; [cbn [rg_class]|]); try contradiction.
    - apply Empirical_behaved.
    - apply Diagonal_behaved.
    - apply Block_behaved.
    - apply ewa_like_behaved. intros Pm p s Hp Hs. unfold sch_ewa, sch_emp in Hs. cbn [app] in Hs. open_conf Hs.
      simpl. assumption.
    - apply Adaptive_behaved; auto.
    - apply LedoitWolf_behaved.
    - apply ewa_like_behaved. intros Pm. apply oas_cov_sh.
    - apply (ewa_like_behaved "ShrunkCovariance" ShrP shr_diff shr_r), shr_cov_sh.
    - apply (ewa_like_behaved "SchurCovariance" SchP sch_diff sch_r). intros; now apply sch_cov_sh.
    - apply (ewa_like_behaved "SchurConditionalCovariance" BlkP blk_diff blk_r). intros; now apply sc_cov_sh.
    - now apply SchurLW_behaved.
    - now apply PartialMoments_behaved.
    - apply Huber_behaved; auto.
    - apply Tyler_behaved; auto.
    - apply Geodesic_behaved; auto.
    - apply DCC_behaved.
    - apply Factor_behaved.
  Qed.
End Block.

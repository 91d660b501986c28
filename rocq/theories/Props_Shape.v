(** * Property C22: covariance_ is a square matrix equal to its transpose, bit for bit

    Law-free except for commutativity of addition, which IEEE binary64 addition has (up to the payload
    of NaNs): the theorem quantifies over every scalar type with a commutative [nadd]. *)
From Coq Require Import ZArith Bool String List Lia Arith.
From Verif Require Import Num Numpy PyVal LinalgModel StateModel BaseModel Estimators RegistryModel
  Spec ListLemmas BaseProofs Shapes ClassShapes BlockShapes StreamProofs RegistryProofs Props_Stream.
From Coq Require Reals.
Import ListNotations.

(** [M] is p x p and equal to its transpose. *)
Definition symmetric_matrix {N : Num} (p : nat) (M : mat N) : Prop :=
  is_mat p p M /\ forall i j, i < p -> j < p -> mget M i j = mget M j i.

Lemma to_symmetric_exact {N : Num} p (a M : mat N) :
  (forall x y : N, nadd x y = nadd y x) -> 1 <= p -> is_mat p p a -> to_symmetric a = Ok M -> symmetric_matrix p M.
Proof.
  intros Hc Hp Ha. unfold to_symmetric. rewrite (is_mat_tab p p a n0 Ha).
  unfold transpose. rewrite (ncols_sh p p) by (auto; apply is_mat_tab2). rewrite (nrows_sh p p) by apply is_mat_tab2.
  unfold madd. rewrite bc2_tab. cbn [bind]. intros [= <-]. split.
  - apply mmap_sh, is_mat_tab2.
  - intros i j Hi Hj. unfold mdivs, mmap. rewrite map_tab2.
    assert (G : forall (f : nat -> nat -> N) i j, i < p -> j < p -> mget (tab2 p p f) i j = f i j).
    { intros f i' j' Hi' Hj'. unfold mget. rewrite nth_tab2 by auto. now rewrite nth_tab by auto. }
    rewrite !G by auto. f_equal. apply Hc.
Qed.

Theorem C22_covariance_is_exactly_symmetric :
  forall (N : Num) (L : LinAlg N), (forall x y : N, nadd x y = nadd y x) -> la_shapes L ->
  forall fuel k, In k (registry L fuel) ->
  forall P p cs M, 1 <= p -> history_of_length p cs ->
    covariance_ (fst (run (new (C := rg_class k) P) cs)) = Ok M ->
    symmetric_matrix p M.
Proof.
  intros N L Hc HL fuel k Hk P p cs M Hp Hh E.
  destruct (registry_behaved L HL fuel k Hk) as (wf & R & HB).
  pose proof (run_good wf R HB p (new P) cs Hp (new_good wf p P) Hh) as [G _].
  unfold covariance_ in E. destruct (fitted_state (fst (run (new P) cs))) as [s|] eqn:F; [|discriminate].
  cbn [bind] in E. unfold fitted_state in F. destruct (i_state (fst (run (new P) cs))) as [s'|] eqn:Es; [|discriminate].
  destruct (get_or 0%nat (c_nsamples (rg_class k) s')) as [n|]; [|discriminate]. cbn [bind] in F.
  destruct (Nat.ltb n 1); [discriminate|]. injection F as ->.
  pose proof (bh_cov _ _ _ HB (i_params (fst (run (new P) cs))) p s Hp (proj1 (G s eq_refl))) as Hcov.
  destruct (c_cov (rg_class k) (i_params (fst (run (new P) cs))) s) as [c|]; [|discriminate].
  eapply to_symmetric_exact; eauto.
Qed.

(** The same for every class whatsoever, in every state: whenever the array produced by the class is
    square, the reported covariance is exactly symmetric. *)
Theorem C22_any_class_any_state :
  forall (N : Num) (C : EstClass N) (o : inst C) s c M p, (forall x y : N, nadd x y = nadd y x) ->
    fitted_state o = Ok s -> c_cov C (i_params o) s = Ok c -> is_mat p p c -> 1 <= p ->
    covariance_ o = Ok M -> symmetric_matrix p M.
Proof.
  intros N C o s c M p Hc F E Hm Hp. unfold covariance_. rewrite F. cbn [bind]. rewrite E. cbn [bind].
  intros H. eapply to_symmetric_exact; eauto.
Qed.

(** Non-vacuity: extended reals have commutative addition, and a two-row stream has a covariance. *)
Lemma NumX_add_comm (x y : NumX) : nadd x y = nadd y x.
Proof. destruct x, y; simpl; auto. now rewrite Raxioms.Rplus_comm. Qed.
Example C22_met : forall a b c d : NumX,
  exists M, covariance_ (fst (run (new (C := Empirical (N := NumX)) (mkEmpP false)) (feed [[a; b]; [c; d]]))) = Ok M.
Proof. intros. eexists. reflexivity. Qed.

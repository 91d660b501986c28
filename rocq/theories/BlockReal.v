(** * Block matrices: functions of the spectrum, projection of a block-diagonal matrix, damping *)
From Coq Require Import Reals ZArith List Lia Lra Arith Bool.
From Verif Require Import Num Numpy LinalgModel ListLemmas RMat LinSpec Fin RealSpec Spectral MatAlg Contracts LinalgReal BlockSpec BlockGeom.
Import ListNotations.
Local Open Scope R_scope.

(** ** A function of the eigenvalues does not depend on the decomposition *)
Lemma spec_fun_unique n A U lam W mu (h : R -> R) : eig_of n A U lam -> eig_of n A W mu ->
  meq n n (spec n U (fun k => h (lam k))) (spec n W (fun k => h (mu k))).
Proof.
  intros [HU EU] [HW EW].
  set (T := rmul n (rT U) W).
  assert (KT : forall a b, (a < n)%nat -> (b < n)%nat -> lam a * T a b = T a b * mu b).
  { intros a b Ha Hb.
    assert (E : rmul n (rT U) (rmul n A W) a b = lam a * T a b).
    { rewrite <- rmul_assoc. unfold T, rmul at 1 3. rewrite <- rsum_scal. apply rsum_ext. intros i Hi.
      rewrite <- Rmult_assoc. f_equal. unfold rmul, rT.
      rewrite (rsum_ext n _ (fun k => rsum n (fun c => U k a * (U k c * lam c * U i c)))).
      2:{ intros k Hk. rewrite rsum_scal. f_equal. now apply EU. }
      rewrite rsum_swap.
      rewrite (rsum_ext n _ (fun c => if Nat.eqb c a then lam c * U i c else 0)).
      2:{ intros c Hc. rewrite (rsum_ext n _ (fun k => (lam c * U i c) * (U k a * U k c))) by (intros; ring). rewrite rsum_scal.
          pose proof (proj1 HU a c Ha Hc) as O. unfold rmul, rT in O. rewrite O. unfold rI. rewrite (Nat.eqb_sym a c). destruct (Nat.eqb c a); ring. }
      rewrite (rsum_delta n a) by auto. ring. }
    assert (F : rmul n (rT U) (rmul n A W) a b = T a b * mu b).
    { unfold T, rmul at 1 3. rewrite <- rsum_scal_r. apply rsum_ext. intros i Hi. rewrite Rmult_assoc. f_equal.
      unfold rmul.
      rewrite (rsum_ext n _ (fun k => rsum n (fun c => W i c * mu c * W k c * W k b))).
      2:{ intros k Hk. rewrite rsum_scal_r. f_equal. now apply EW. }
      rewrite rsum_swap.
      rewrite (rsum_ext n _ (fun c => if Nat.eqb c b then W i c * mu c else 0)).
      2:{ intros c Hc. rewrite (rsum_ext n _ (fun k => (W i c * mu c) * (W k c * W k b))) by (intros; ring). rewrite rsum_scal.
          pose proof (proj1 HW c b Hc Hb) as O. unfold rmul, rT in O. rewrite O. unfold rI. destruct (Nat.eqb c b); ring. }
      now rewrite (rsum_delta n b) by auto. }
    congruence. }
  assert (KH : forall a b, (a < n)%nat -> (b < n)%nat -> h (lam a) * T a b = T a b * h (mu b)).
  { intros a b Ha Hb. destruct (Req_dec (T a b) 0) as [->|N]; [ring|].
    assert (lam a = mu b) by (specialize (KT a b Ha Hb); apply (Rmult_eq_reg_r (T a b)); auto; lra). rewrite H. ring. }
  (* W = U T, U = W T^T *)
  assert (EWT : forall i b, (i < n)%nat -> (b < n)%nat -> W i b = rsum n (fun a => U i a * T a b)).
  { intros i b Hi Hb. change (W i b = rmul n U (rmul n (rT U) W) i b). rewrite <- rmul_assoc.
    rewrite (rmul_ext n n n _ rI _ W (proj2 HU) (meq_refl _ _ _) i b Hi Hb). now rewrite rmul_I_l. }
  assert (EUT : forall j a, (j < n)%nat -> (a < n)%nat -> U j a = rsum n (fun b => T a b * W j b)).
  { intros j a Hj Ha. rewrite <- (rmul_I_l n U j a Hj).
    rewrite <- (rmul_ext n n n (rmul n W (rT W)) rI U U (proj2 HW) (meq_refl _ _ _) j a Hj Ha). rewrite rmul_assoc.
    unfold rmul at 1. apply rsum_ext. intros b Hb. unfold T. change (rmul n (rT U) W a b) with (rsum n (fun k => U k a * W k b)).
    unfold rmul, rT. rewrite <- rsum_scal, <- rsum_scal_r. apply rsum_ext. intros; ring. }
  intros i j Hi Hj. unfold spec.
  rewrite (rsum_ext n _ (fun a => rsum n (fun b => U i a * (T a b * h (mu b)) * W j b))).
  - rewrite rsum_swap. apply rsum_ext. intros b Hb. rewrite (EWT i b Hi Hb).
    rewrite Rmult_assoc, <- rsum_scal_r. apply rsum_ext. intros; ring.
  - intros a Ha. rewrite (EUT j a Hj Ha), <- rsum_scal. apply rsum_ext. intros b Hb. rewrite <- (KH a b Ha Hb). ring.
Qed.

(** ** Sums over one block *)
Lemma block_sum p k b f : (b < k)%nat ->
  rsum p (fun j => if Nat.eqb (block_of p k j) b then f j else 0) = rsum (size p k b) (fun j => f (block_start p k b + j)%nat).
Proof.
  intros Hb. assert (Hk : k <> O) by lia. pose proof (start_mono p k b (S b) ltac:(lia)). pose proof (start_le_p p k (S b) Hk Hb).
  assert (Ep : p = (block_start p k b + (size p k b + (p - block_start p k (S b))))%nat) by (unfold size; lia).
  rewrite Ep at 1. rewrite rsum_split, rsum_split.
  assert (Z : forall i, (i < p)%nat -> ~ (block_start p k b <= i < block_start p k (S b))%nat -> Nat.eqb (block_of p k i) b = false).
  { intros i Hi N. apply Nat.eqb_neq. intros E. apply N. rewrite <- E. now apply block_of_spec. }
  rewrite (rsum_zero (block_start p k b)).
  2:{ intros i Hi. rewrite Z; auto; unfold size in *; lia. }
  rewrite (rsum_zero (p - block_start p k (S b))).
  2:{ intros i Hi. rewrite Z; auto; unfold size in *; lia. }
  rewrite Rplus_0_l, Rplus_0_r. apply rsum_ext. intros i Hi. rewrite (block_of_in p k b); auto; [now rewrite Nat.eqb_refl|].
  unfold size in *; lia.
Qed.
(** position of variable i within its block *)
Definition pos (p k i : nat) : nat := (i - block_start p k (block_of p k i))%nat.
Lemma pos_spec p k i : k <> O -> (i < p)%nat -> (pos p k i < size p k (block_of p k i))%nat /\ i = (block_start p k (block_of p k i) + pos p k i)%nat.
Proof. intros Hk Hi. destruct (block_of_spec p k i Hk Hi) as [_ H]. unfold pos, size. lia. Qed.
Lemma pos_eq p k i j : k <> O -> (i < p)%nat -> (j < p)%nat -> block_of p k i = block_of p k j -> (pos p k i =? pos p k j)%nat = (i =? j)%nat.
Proof.
  intros Hk Hi Hj E. destruct (pos_spec p k i Hk Hi) as [_ A]. destruct (pos_spec p k j Hk Hj) as [_ B]. rewrite E in A.
  destruct (Nat.eqb_spec i j) as [->|N]; [apply Nat.eqb_refl|]. apply Nat.eqb_neq. lia.
Qed.
Lemma pos_at p k b u : (b < k)%nat -> (u < size p k b)%nat -> block_of p k (block_start p k b + u) = b /\ pos p k (block_start p k b + u) = u.
Proof.
  intros Hb Hu. assert (E : block_of p k (block_start p k b + u) = b) by (apply block_of_in; auto; unfold size in Hu; lia).
  split; auto. unfold pos. rewrite E. lia.
Qed.

(** the block-diagonal matrix with the given blocks *)
Definition assemble_ (p k : nat) (M : nat -> rmat) : rmat :=
  fun i j => if Nat.eqb (block_of p k i) (block_of p k j) then M (block_of p k i) (pos p k i) (pos p k j) else 0.
(** block b of A *)
Definition sub (p k b : nat) (A : rmat) : rmat := fun u v => A (block_start p k b + u)%nat (block_start p k b + v)%nat.

Lemma assemble_mul p k M Q : k <> O ->
  meq p p (rmul p (assemble_ p k M) (assemble_ p k Q)) (assemble_ p k (fun b => rmul (size p k b) (M b) (Q b))).
Proof.
  intros Hk i j Hi Hj. destruct (block_of_spec p k i Hk Hi) as [Bi _]. unfold rmul.
  rewrite (rsum_ext p _ (fun l => if Nat.eqb (block_of p k l) (block_of p k i) then M (block_of p k i) (pos p k i) (pos p k l) * assemble_ p k Q l j else 0)).
  2:{ intros l Hl. unfold assemble_ at 1. rewrite Nat.eqb_sym. destruct (Nat.eqb _ _); ring. }
  rewrite (block_sum p k (block_of p k i) (fun l => M (block_of p k i) (pos p k i) (pos p k l) * assemble_ p k Q l j)) by auto.
  unfold assemble_. destruct (Nat.eqb_spec (block_of p k i) (block_of p k j)) as [E|N].
  - apply rsum_ext. intros u Hu. destruct (pos_at p k (block_of p k i) u Bi Hu) as [-> ->]. rewrite E, Nat.eqb_refl. reflexivity.
  - apply rsum_zero. intros u Hu. destruct (pos_at p k (block_of p k i) u Bi Hu) as [-> _].
    destruct (Nat.eqb_spec (block_of p k i) (block_of p k j)); [contradiction|ring].
Qed.
Lemma assemble_ext p k M Q : k <> O -> (forall b, (b < k)%nat -> meq (size p k b) (size p k b) (M b) (Q b)) ->
  meq p p (assemble_ p k M) (assemble_ p k Q).
Proof.
  intros Hk H i j Hi Hj. unfold assemble_. destruct (Nat.eqb_spec (block_of p k i) (block_of p k j)) as [E|]; auto.
  destruct (block_of_spec p k i Hk Hi) as [Bi _]. apply H; auto; [now apply pos_spec|]. rewrite E. now apply pos_spec.
Qed.
Lemma assemble_I p k : k <> O -> meq p p (assemble_ p k (fun _ => rI)) rI.
Proof.
  intros Hk i j Hi Hj. unfold assemble_, rI. destruct (Nat.eqb_spec (block_of p k i) (block_of p k j)) as [E|N].
  - now rewrite pos_eq by auto.
  - destruct (Nat.eqb_spec i j) as [->|]; [congruence|reflexivity].
Qed.
Lemma assemble_T p k M : meq p p (rT (assemble_ p k M)) (assemble_ p k (fun b => rT (M b))).
Proof.
  intros i j _ _. unfold rT, assemble_. rewrite Nat.eqb_sym. destruct (Nat.eqb_spec (block_of p k i) (block_of p k j)) as [->|]; reflexivity.
Qed.
Lemma assemble_sub p k A : k <> O -> block_diagonal p k A -> meq p p (assemble_ p k (fun b => sub p k b A)) A.
Proof.
  intros Hk HA i j Hi Hj. unfold assemble_, sub. destruct (Nat.eqb_spec (block_of p k i) (block_of p k j)) as [E|N].
  - f_equal; [symmetry; now apply pos_spec|]. rewrite E. symmetry. now apply pos_spec.
  - symmetry. now apply HA.
Qed.
Lemma sub_assemble p k b M : (b < k)%nat -> meq (size p k b) (size p k b) (sub p k b (assemble_ p k M)) (M b).
Proof.
  intros Hb u v Hu Hv. unfold sub, assemble_. destruct (pos_at p k b u Hb Hu) as [-> ->]. destruct (pos_at p k b v Hb Hv) as [-> ->].
  now rewrite Nat.eqb_refl.
Qed.
Lemma assemble_spec p k U f : k <> O ->
  meq p p (spec p (assemble_ p k U) (fun i => f (block_of p k i) (pos p k i))) (assemble_ p k (fun b => spec (size p k b) (U b) (f b))).
Proof.
  intros Hk i j Hi Hj. destruct (block_of_spec p k i Hk Hi) as [Bi _]. unfold spec.
  rewrite (rsum_ext p _ (fun l => if Nat.eqb (block_of p k l) (block_of p k i)
      then U (block_of p k i) (pos p k i) (pos p k l) * f (block_of p k l) (pos p k l) * assemble_ p k U j l else 0)).
  2:{ intros l Hl. unfold assemble_ at 1. rewrite Nat.eqb_sym. destruct (Nat.eqb _ _); ring. }
  rewrite (block_sum p k (block_of p k i) (fun l => U (block_of p k i) (pos p k i) (pos p k l) * f (block_of p k l) (pos p k l) * assemble_ p k U j l)) by auto.
  unfold assemble_. destruct (Nat.eqb_spec (block_of p k i) (block_of p k j)) as [E|N].
  - apply rsum_ext. intros u Hu. destruct (pos_at p k (block_of p k i) u Bi Hu) as [-> ->]. rewrite E, Nat.eqb_refl. reflexivity.
  - apply rsum_zero. intros u Hu. destruct (pos_at p k (block_of p k i) u Bi Hu) as [-> _].
    destruct (Nat.eqb_spec (block_of p k j) (block_of p k i)); [congruence|ring].
Qed.
Lemma assemble_orth p k U : k <> O -> (forall b, (b < k)%nat -> orth (size p k b) (U b)) -> orth p (assemble_ p k U).
Proof.
  intros Hk H. split.
  - eapply meq_trans; [apply rmul_ext; [apply assemble_T|apply meq_refl]|].
    eapply meq_trans; [apply assemble_mul; auto|]. eapply meq_trans; [|apply (assemble_I p k); auto].
    apply assemble_ext; auto. intros b Hb. apply H; auto.
  - eapply meq_trans; [apply rmul_ext; [apply meq_refl|apply assemble_T]|].
    eapply meq_trans; [apply assemble_mul; auto|]. eapply meq_trans; [|apply (assemble_I p k); auto].
    apply assemble_ext; auto. intros b Hb. apply H; auto.
Qed.

(** ** Damping *)
Lemma block_qf p k A v : k <> O ->
  qf p (damped p k 0 A) v = rsum k (fun b => qf p A (fun i => if Nat.eqb (block_of p k i) b then v i else 0)).
Proof.
  intros Hk. symmetry. unfold qf. rewrite rsum_swap. apply rsum_ext. intros i Hi. rewrite rsum_swap. apply rsum_ext. intros j Hj.
  destruct (block_of_spec p k i Hk Hi) as [Bi _]. unfold damped.
  rewrite (rsum_ext k _ (fun b => if Nat.eqb b (block_of p k i) then v i * A i j * (if Nat.eqb (block_of p k j) b then v j else 0) else 0)).
  2:{ intros b Hb. rewrite (Nat.eqb_sym b). destruct (Nat.eqb (block_of p k i) b); ring. }
  rewrite rsum_delta by auto. rewrite (Nat.eqb_sym (block_of p k j)). destruct (Nat.eqb _ _); ring.
Qed.
Lemma damped_sym p k g A n : sym n A -> sym n (damped p k g A).
Proof. intros H i j Hi Hj. unfold damped. rewrite Nat.eqb_sym, (H i j) by auto. reflexivity. Qed.
Lemma psd_damped0 p k A : k <> O -> psd p A -> psd p (damped p k 0 A).
Proof.
  intros Hk [HS HA]. split; [now apply damped_sym|]. intros v. rewrite block_qf by auto. apply rsum_nonneg. intros b _. apply HA.
Qed.
Lemma psd_damped p k g A : k <> O -> 0 <= g <= 1 -> psd p A -> psd p (damped p k g A).
Proof.
  intros Hk Hg HA. apply (psd_ext p (fun i j => g * A i j + (1 - g) * damped p k 0 A i j)).
  - intros i j _ _. unfold damped. destruct (Nat.eqb _ _); ring.
  - apply psd_plus; apply psd_scal; try lra; auto. now apply psd_damped0.
Qed.
Lemma damped_1 p k A n m : meq n m (damped p k 1 A) A.
Proof. intros i j _ _. unfold damped. destruct (Nat.eqb _ _); ring. Qed.
Lemma damped_0 p k A : block_diagonal p k (damped p k 0 A).
Proof. intros i j _ _ H. unfold damped. destruct (Nat.eqb_spec (block_of p k i) (block_of p k j)); [contradiction|ring]. Qed.

Section L.
  Context (L : LinAlg NumX) (HL : lawful L).
  Lemma mpd_eig p A U lam : (1 <= p)%nat -> eig_of p (symm A) U lam -> meq p p (mpd L p A) (spec p U (fun k => Rmax (lam k) e8)).
  Proof.
    intros Hp He. destruct (mpd_spec L HL p A Hp) as (W & mu & Hw & E). destruct (mres_ok p p _ _ E) as [_ E2].
    eapply meq_trans; [exact E2|]. exact (spec_fun_unique p (symm A) W mu U lam (fun x => Rmax x e8) Hw He).
  Qed.
  Lemma mpd_projection p A : (1 <= p)%nat -> pd_projection p A (mpd L p A).
  Proof. intros Hp. split; [now apply mpd_ok|]. intros C HC. now apply mpd_nearest. Qed.
  (** eigendecomposition of a block, as returned by eigh *)
  Definition eU (p : nat) (A : rmat) : rmat := match la_eigh L (fm p p A) with Ok (_, u) => matR u | Err _ => fun _ _ => 0 end.
  Definition el (p : nat) (A : rmat) : nat -> R := match la_eigh L (fm p p A) with Ok (l, _) => fun i => toR (vget l i) | Err _ => fun _ => 0 end.
  Lemma eig_eigh p A : (1 <= p)%nat -> sym p A -> eig_of p A (eU p A) (el p A).
  Proof.
    intros Hp HS. destruct (law_eigh L HL p A Hp HS) as (lam & U & E & He). unfold eU, el. rewrite E.
    destruct He as [[H1 H2] H3].
    assert (EU : meq p p (matR (fm p p U)) U) by apply matR_fm.
    split; [split|].
    - eapply meq_trans; [|exact H1]. apply rmul_ext; auto. intros i j Hi Hj. unfold rT. now apply EU.
    - eapply meq_trans; [|exact H2]. apply rmul_ext; auto. intros i j Hi Hj. unfold rT. now apply EU.
    - intros i j Hi Hj. rewrite (H3 i j Hi Hj). apply rsum_ext. intros k Hk. rewrite !EU by auto. rewrite fv_get by auto. reflexivity.
  Qed.
  Lemma mpd_blocks p k A : (1 <= k <= p)%nat -> block_diagonal p k A ->
    meq p p (mpd L p A) (assemble_ p k (fun b => mpd L (size p k b) (sub p k b A))).
  Proof.
    intros Hk HA. assert (k0 : k <> O) by lia. assert (Hp : (1 <= p)%nat) by lia.
    set (U := fun b => eU (size p k b) (symm (sub p k b A))). set (l := fun b => el (size p k b) (symm (sub p k b A))).
    assert (Hsz : forall b, (1 <= size p k b)%nat) by (intros b; pose proof (start_lt p k b Hk); unfold size; lia).
    assert (He : forall b, eig_of (size p k b) (symm (sub p k b A)) (U b) (l b)) by (intros b; apply eig_eigh; [apply Hsz|apply symm_sym]).
    assert (HB : block_diagonal p k (symm A)).
    { intros i j Hi Hj N. unfold symm. rewrite HA, HA by auto. lra. }
    assert (G : eig_of p (symm A) (assemble_ p k U) (fun i => l (block_of p k i) (pos p k i))).
    { split; [apply assemble_orth; auto; intros; apply He|].
      intros i j Hi Hj. rewrite <- (assemble_sub p k (symm A) k0 HB i j Hi Hj).
      transitivity (assemble_ p k (fun b => spec (size p k b) (U b) (l b)) i j).
      - apply assemble_ext; auto. intros b Hb. apply (eig_spec _ _ _ _ (He b)).
      - symmetry. now apply (assemble_spec p k U l). }
    eapply meq_trans; [apply mpd_eig; [auto|exact G]|].
    eapply meq_trans; [exact (assemble_spec p k U (fun b u => Rmax (l b u) e8) k0)|].
    apply assemble_ext; auto. intros b Hb. apply meq_sym. apply mpd_eig; auto.
  Qed.
  Lemma mpd_block_diagonal p k A : (1 <= k <= p)%nat -> block_diagonal p k A -> block_diagonal p k (mpd L p A).
  Proof.
    intros Hk HA i j Hi Hj N. rewrite (mpd_blocks p k A Hk HA i j Hi Hj). unfold assemble_.
    destruct (Nat.eqb_spec (block_of p k i) (block_of p k j)); [contradiction|reflexivity].
  Qed.
End L.

(** * Property C56 over the reals: the projection at the end *)
From Coq Require Import Reals Lra ZArith Bool String List Lia Arith.
From Verif Require Import Num Numpy PyVal LinalgModel BaseModel KeyedModel Spec KeyedSpec RealSpec LinSpec ListLemmas
  BaseProofs RMat Fin Spectral MatAlg Contracts LinalgReal KeyedProofs AsmProofs Props_Linalg Props_Asm.
Import ListNotations.
Local Open Scope string_scope.
Local Open Scope list_scope.
Local Open Scope R_scope.

(** Every universe with data reports a finite matrix. *)
Definition readable_finite {C : EstClass NumX} (d : dynamic C) : Prop :=
  Forall (fun kv => let u := snd kv in u_keys u <> [] -> NoDup (u_keys u) /\ exists n, n_samples_ (u_est u) = Ok n /\
    (1 <= n -> exists A, covariance_ (u_est u) = Ok (fm (length (u_keys u)) (length (u_keys u)) A))%nat) (dy_states d).
(** The mean of the off-diagonal real numbers of a table, 0 if there are none. *)
Definition real_off_diagonal_mean (n : nat) (know : nat -> nat -> option R) : R :=
  let vals := flat_map (fun a => flat_map (fun b => if Nat.eqb a b then [] else
                match know a b with Some v => [v] | None => [] end) (seq 0 n)) (seq 0 n) in
  match vals with [] => 0 | _ => fold_right Rplus 0 vals / INR (length vals) end.

Lemma readable_of_finite {C : EstClass NumX} (d : dynamic C) : readable_finite d -> readable d.
Proof.
  unfold readable_finite, readable. apply Forall_impl. intros [i u] H. cbn [snd] in *. intros Hne. destruct (H Hne) as (ND & n & En & Hn).
  split; [exact ND|]. exists n. split; [exact En|]. intros H1. destruct (Hn H1) as (A & HA). exists (fm (length (u_keys u)) (length (u_keys u)) A).
  split; [exact HA|]. apply is_mat_tab2.
Qed.

Lemma knows_fin {C : EstClass NumX} (d : dynamic C) ka kb v : readable_finite d -> knows d ka kb (Some v) -> exists r, v = Fin r.
Proof.
  intros HR [[_ H]|(u & w & B & (cov & i & j & Ec & Hi & Hj & Ev) & E)]; [discriminate|].
  assert (Hin : In u (holders d ka kb)) by (destruct B as (l1 & l2 & -> & _); apply in_or_app; right; now left).
  apply filter_In in Hin. destruct Hin as [Hin Hc]. apply in_map_iff in Hin. destruct Hin as (kv & <- & Hkv).
  unfold readable_finite in HR. rewrite Forall_forall in HR. specialize (HR kv Hkv). cbv zeta in HR.
  destruct HR as (ND & n & En & Hn). { intros X. rewrite X in Hi. destruct i; discriminate. }
  apply andb_true_iff in Hc. destruct Hc as [_ Hd]. unfold has_data in Hd. rewrite En in Hd. apply Nat.ltb_lt in Hd.
  destruct (Hn Hd) as (A & HA). rewrite HA in Ec. injection Ec as <-.
  assert (Li : (i < length (u_keys (snd kv)))%nat) by (apply nth_error_Some; congruence).
  assert (Lj : (j < length (u_keys (snd kv)))%nat) by (apply nth_error_Some; congruence).
  assert (Ew : w = Fin (A i j)). { rewrite Ev. unfold mget, fm. rewrite nth_tab2 by auto. now rewrite nth_tab. }
  rewrite Ew in E. simpl in E. injection E as ->. eauto.
Qed.

Definition opt_fin (o : option R) : option NumX := match o with Some r => Some (Fin r) | None => None end.

Lemma mean_fin n know : @off_diagonal_mean NumX n (fun a b => opt_fin (know a b)) = Fin (real_off_diagonal_mean n know).
Proof.
  unfold off_diagonal_mean, real_off_diagonal_mean.
  set (vals := flat_map _ (seq 0 n)). set (rv := flat_map (fun a => _) (seq 0 n)).
  assert (E : vals = map (fun r => Fin r : NumX) rv).
  { unfold vals, rv. generalize (seq 0 n) at 2 4. intros l. induction l as [|a l IH]; [reflexivity|]. cbn [flat_map]. rewrite map_app, IH. f_equal.
    generalize (seq 0 n). intros m. induction m as [|b m IHm]; [reflexivity|]. cbn [flat_map]. rewrite map_app, IHm. f_equal.
    destruct (Nat.eqb a b); [reflexivity|]. destruct (know a b); reflexivity. }
  rewrite E. clearbody vals rv. clear E vals. destruct rv as [|r rv]; [reflexivity|]. cbn [map].
  change (Fin r :: map (fun r0 => Fin r0 : NumX) rv) with (map (fun r0 => Fin r0 : NumX) (r :: rv)).
  set (l := r :: rv).
  assert (El : map (fun r0 => Fin r0 : NumX) l = fv (length l) (fun i => nth i l 0)).
  { unfold fv. rewrite (tab_nth (map (fun r0 => Fin r0 : NumX) l) (Fin 0 : NumX)). rewrite map_length. apply tab_ext. intros i _.
    apply (map_nth (fun r0 => Fin r0 : NumX)). }
  rewrite El, vmean_fin by (unfold l; simpl; lia). cbn [nisnan NumX].
  assert (Es : rsum (length l) (fun i => nth i l 0) = fold_right Rplus 0 l).
  { clearbody l. clear. induction l as [|x l IH]; [reflexivity|]. cbn [length fold_right]. rewrite <- IH.
    rewrite rsum_S_first. reflexivity. }
  rewrite Es. reflexivity.
Qed.

(** With a lawful LAPACK and finite universe matrices, the reported matrix is positive definite, and
    it is exactly the assembled one when that is positive definite already. *)
Theorem C56_reported_matrix :
  forall (L : LinAlg NumX) fuel (C : EstClass NumX) (d : dynamic C) q,
    lawful L -> (1 <= fuel)%nat -> readable_finite d -> NoDup q -> q <> [] ->
    exists know : nat -> nat -> option R,
      (forall i j ki kj, (i <= j)%nat -> nth_error q i = Some ki -> nth_error q j = Some kj ->
         knows d ki kj (opt_fin (know i j)) /\ know j i = know i j) /\
      let n := length q in
      let A a b := match know a b with Some v => v | None => real_off_diagonal_mean n know end in
      exists P, dynamic_cov_array L fuel d (Some q) = Ok (fm n n P, q) /\ pd n P /\ (pd n A -> meq n n P A).
Proof.
  intros L fuel C d q HL Hf HR HN Hq.
  destruct (C56_assembled_matrix NumX L fuel C d q eq_refl (readable_of_finite d HR) HN) as (know & HK & E).
  set (n := length q) in *. cbv zeta in E.
  set (know' := fun a b => if (Nat.ltb a n && Nat.ltb b n)%bool then match know a b with Some (Fin r) => Some r | _ => None end else None).
  assert (EK : forall a b, (a < n)%nat -> (b < n)%nat -> know a b = opt_fin (know' a b)).
  { assert (G : forall a b, (a <= b)%nat -> (a < n)%nat -> (b < n)%nat -> know a b = opt_fin (know' a b) /\ know b a = know a b).
    { intros a b Hab Ha Hb.
      destruct (nth_error q a) as [ka|] eqn:Ea; [|apply nth_error_None in Ea; unfold n in Ha; lia].
      destruct (nth_error q b) as [kb|] eqn:Eb; [|apply nth_error_None in Eb; unfold n in Hb; lia].
      destruct (HK a b ka kb Hab Ea Eb) as [K1 K2]. split; [|exact K2]. unfold know'.
      replace (Nat.ltb a n) with true by (symmetry; now apply Nat.ltb_lt). replace (Nat.ltb b n) with true by (symmetry; now apply Nat.ltb_lt).
      cbn [andb]. destruct (know a b) as [v|] eqn:Ev; [|reflexivity]. destruct (knows_fin d ka kb v HR K1) as (r & ->). reflexivity. }
    intros a b Ha Hb. destruct (Nat.le_gt_cases a b) as [H|H]; [now apply G|].
    destruct (G b a ltac:(lia) Hb Ha) as [G1 G2]. rewrite G2, G1. unfold know' in *.
    rewrite (andb_comm (Nat.ltb a n)). rewrite G2. reflexivity. }
  assert (EM : off_diagonal_mean n know = Fin (real_off_diagonal_mean n know')).
  { rewrite <- mean_fin. unfold off_diagonal_mean.
    assert (X : flat_map (fun a => flat_map (fun b => if Nat.eqb a b then [] else match know a b with Some v => [v] | None => [] end) (seq 0 n)) (seq 0 n) =
      flat_map (fun a => flat_map (fun b => if Nat.eqb a b then [] else match opt_fin (know' a b) with Some v => [v] | None => [] end) (seq 0 n)) (seq 0 n)).
    { rewrite !flat_map_concat_map. f_equal. apply map_ext_in. intros a Ha. apply in_seq in Ha. rewrite !flat_map_concat_map. f_equal.
      apply map_ext_in. intros b Hb. apply in_seq in Hb. rewrite (EK a b) by lia. reflexivity. }
    rewrite X. reflexivity. }
  exists know'. split.
  { intros i j ki kj Hij Hi Hj. destruct (HK i j ki kj Hij Hi Hj) as [K1 K2].
    assert (Li : (i < n)%nat) by (apply nth_error_Some; congruence). assert (Lj : (j < n)%nat) by (apply nth_error_Some; congruence).
    split; [rewrite <- EK by auto; exact K1|]. unfold know'. rewrite (andb_comm (Nat.ltb j n)), K2. reflexivity. }
  cbv zeta. set (A := fun a b => match know' a b with Some v => v | None => real_off_diagonal_mean n know' end).
  assert (EA : tab2 n n (fun a b => match know a b with Some v => v | None => off_diagonal_mean n know end) = fm n n A).
  { apply tab2_ext. intros a b Ha Hb. rewrite (EK a b) by auto. rewrite EM. unfold A. destruct (know' a b); reflexivity. }
  rewrite EA, to_symmetric_fin in E. cbn [bind] in E. change (fun i j => (A i j + A j i) / 2) with (symm A) in E.
  assert (Hn : (1 <= n)%nat) by (unfold n; destruct q; [congruence|simpl; lia]).
  destruct (C42_nearest_pos_def L n (symm A) fuel HL Hn Hf) as (B & P & e & EB & PB & _).
  exists B. rewrite EB in E. cbn [bind] in E. split; [exact E|]. split; [exact PB|]. intros PA.
  assert (SA : meq n n (symm A) A) by (apply symm_id; apply PA).
  assert (PS : pd n (symm A)) by (apply (pd_ext n A); [now apply meq_sym|exact PA]).
  rewrite (C42_pos_def_unchanged L n (symm A) fuel HL Hn Hf PS) in EB. injection EB as EB.
  eapply meq_trans; [|exact SA]. intros i j Hi Hj. unfold fm in EB. apply (tab2_inj _ _ _ _ i j) in EB; auto. injection EB as ->. reflexivity.
Qed.

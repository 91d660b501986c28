(** * C08 for BlockCovariance: exactly which observations of another length are accepted *)
From Coq Require Import ZArith Bool String List Lia Arith.
From Verif Require Import Num Numpy PyVal LinalgModel StateModel BaseModel Estimators RegistryModel Spec ListLemmas BaseProofs Shapes ClassShapes BlockShapes StreamProofs RegistryProofs.
Import ListNotations.
Local Open Scope string_scope.

Lemma bc_fits {A B D} (f : A -> B -> D) a b : length a = length b \/ length a = 1 \/ length b = 1 ->
  exists c, bc f a b = Ok c /\ length c = (if Nat.eqb (length a) 1 then length b else length a).
Proof.
  intros H. unfold bc. destruct (Nat.eqb_spec (length a) (length b)) as [E|E].
  - eexists. split; [reflexivity|]. rewrite zipw_length by auto. rewrite E. destruct (Nat.eqb (length b) 1); auto.
  - destruct H as [H|[H|H]]; [contradiction| |].
    + destruct a as [|x [|]]; try discriminate. eexists. split; [reflexivity|]. now rewrite map_length.
    + destruct b as [|y [|]]; try discriminate. destruct a as [|x [|x' a]]; try (cbn in E; congruence); (eexists; split; [reflexivity|]); cbn; now rewrite ?map_length.
Qed.

Section Mismatch.
  Context {N : Num} (L : LinAlg N).
  Notation vec := (vec N).

  Lemma ewa_fits d n r b (m : vec) (c : mat N) (x : vec) : 1 <= d -> length m = d -> is_mat d d c -> length x = d \/ length x = 1 \/ length x = 0 /\ d = 1 ->
    exists s, ewa_update (canon d n r b m c) x = Ok s.
  Proof.
    intros Hd Hm Hc Hx.
    destruct Hx as [Hx|[Hx|[Hx ->]]].
    - destruct (ewa_update_canon d n r b m c x Hd Hm Hc Hx) as (m' & c' & E & _). eauto.
    - assert (S1 : forall (f : N -> N -> N) (a : vec), length a = d -> exists w, bc f x a = Ok w /\ length w = d).
      { intros f a Ha. destruct (bc_fits f x a ltac:(lia)) as (w & E & Hw). exists w. split; auto. rewrite Hw, Hx, Nat.eqb_refl. auto. }
      assert (S2 : forall (f : N -> N -> N) (a : vec), length a = d -> exists w, bc f a x = Ok w /\ length w = d).
      { intros f a Ha. destruct (bc_fits f a x ltac:(lia)) as (w & E & Hw). exists w. split; auto. rewrite Hw, Hx. destruct (Nat.eqb_spec (length a) 1); lia. }
      assert (S3 : forall (u : mat N) (v w : vec), is_mat d d u -> length v = d -> length w = d -> exists y, madd u (outer v w) = Ok y).
      { intros u v w Hu Hv Hw. pose proof (madd_sh (fun _ => False) d d u (outer v w) Hu (outer_sh d d v w Hv Hw)) as H. destruct (madd u (outer v w)); [eauto|contradiction]. }
      assert (S5 : forall (u : mat N) k (v w : vec), is_mat d d u -> length v = d -> length w = d -> exists y, madd u (mscale k (outer v w)) = Ok y).
      { intros u k v w Hu Hv Hw. pose proof (madd_sh (fun _ => False) d d u (mscale k (outer v w)) Hu (mmap_sh d d _ _ (outer_sh d d v w Hv Hw))) as H. destruct (madd u (mscale k (outer v w))); [eauto|contradiction]. }
      assert (S4 : forall (f : N -> N -> N) (a b : vec), length a = d -> length b = d -> exists w, bc f a b = Ok w /\ length w = d).
      { intros f a b' Ha Hb. rewrite bc_eqlen by congruence. eexists. split; [reflexivity|]. rewrite zipw_length; congruence. }
      unfold ewa_update, canon. red_get. destruct (Nat.ltb n b).
      + unfold emp_update. red_get. unfold vsub at 1. destruct (S1 nsub m Hm) as (w & -> & Hw). cbn [bind].
        unfold vadd. destruct (S4 nadd m (vdivs w (nofn (S n))) Hm ltac:(unfold vdivs; now rewrite map_length)) as (mean & -> & Hmean). cbn [bind].
        unfold vsub. destruct (S1 nsub mean Hmean) as (xm & -> & Hxm). cbn [bind].
        match goal with |- context [madd ?u (outer ?v ?w)] => destruct (S3 u v w) as (y & ->) end.
        { apply mmap_sh. exact Hc. } { exact Hw. } { unfold vdivs. now rewrite map_length. }
        cbn [bind]. eauto.
      + unfold vsub. destruct (S1 nsub m Hm) as (w & -> & Hw). cbn [bind].
        assert (Hxs : length (vscale r x) = 1) by (unfold vscale; now rewrite map_length).
        unfold vadd. destruct (bc_fits nadd (vscale (nsub n1 r) m) (vscale r x) ltac:(lia)) as (mean & -> & Hmean). cbn [bind].
        destruct (S5 (mscale (nsub n1 r) c) r w w) as (y & ->); auto. { apply mmap_sh. exact Hc. }
        cbn [bind]. eauto.
    - destruct x; [|discriminate]. destruct m as [|m0 [|]]; try discriminate. destruct Hc as [Hc1 Hc2]. destruct c as [|c0 [|]]; try discriminate.
      unfold ewa_update, canon. red_get. destruct (Nat.ltb n b); cbn; eauto.
  Qed.
  Lemma ewa_unfit d n r b (m : vec) (c : mat N) (x : vec) : 2 <= d -> length m = d -> length x <> d -> length x <> 1 ->
    ewa_update (canon d n r b m c) x = Err ValueError.
  Proof.
    intros Hd Hm H1 H2. unfold ewa_update, canon. red_get. destruct (Nat.ltb n b).
    - unfold emp_update. red_get. rewrite vsub_mismatch by lia. reflexivity.
    - rewrite vsub_mismatch by lia. reflexivity.
  Qed.

  Definition fits (x : vec) (ab : nat * nat) : Prop :=
    let l := length (slice (fst ab) (snd ab) x) in let w := snd ab - fst ab in l = w \/ l = 1 \/ w = 1.
  Lemma fits_dec x ab : {fits x ab} + {~ fits x ab}.
  Proof.
    unfold fits. destruct (Nat.eq_dec (length (slice (fst ab) (snd ab) x)) (snd ab - fst ab)); [left; auto|].
    destruct (Nat.eq_dec (length (slice (fst ab) (snd ab) x)) 1); [left; auto|]. destruct (Nat.eq_dec (snd ab - fst ab) 1); [left; auto|right; lia].
  Qed.
  Lemma update_rule n r b x subs sl : Forall (fun ab => fst ab < snd ab) sl -> Forall2 (sub_ok n r b) subs sl ->
    (Forall (fits x) sl -> exists o, zipM (fun sub ab => ewa_update sub (slice (fst ab) (snd ab) x)) subs sl = Ok o) /\
    (~ Forall (fits x) sl -> exists e, zipM (fun sub ab => ewa_update sub (slice (fst ab) (snd ab) x)) subs sl = Err e).
  Proof.
    intros HB H. induction H as [|sub ab subs sl (m & c & -> & Hm & Hc) H IH]; cbn [zipM].
    - split; [eauto|]. intros K. exfalso. apply K. constructor.
    - inversion HB as [|? ? HB1 HB2]; subst. destruct (IH HB2) as [I1 I2]. split; intros K.
      + inversion K as [|? ? K1 K2]; subst. destruct (I1 K2) as (o & ->).
        destruct (ewa_fits (snd ab - fst ab) n r b m c (slice (fst ab) (snd ab) x)) as (s & ->); auto; [lia| |cbn; eauto].
        destruct K1 as [K1|[K1|K1]]; auto. rewrite K1. destruct (Nat.eq_dec (length (slice (fst ab) (snd ab) x)) 1); [auto|].
        right. right. split; auto. assert (length (slice (fst ab) (snd ab) x) <= 1) by (unfold slice; rewrite firstn_length; lia). lia.
      + destruct (fits_dec x ab) as [F|F].
        * destruct I2 as (e & ->). { intros G. apply K. now constructor. }
          destruct (ewa_update _ _); cbn; eauto.
        * rewrite ewa_unfit; cbn; eauto; unfold fits in F; lia.
  Qed.
  Lemma slices_kept P s x s' : c_update (Block L) P s x = Ok s' -> b_slices s' = b_slices s.
  Proof. cbn. unfold blk_update. destruct (zipM _ _ _); [|discriminate]. cbn. now intros [= <-]. Qed.
  Lemma fit_rows_slices p P sl : slices (blk_n_blocks P) p = Ok sl -> forall rows (o : inst (Block L)), rows_of_length p rows ->
    i_params o = P -> (forall s, i_state o = Some s -> b_slices s = sl) ->
    forall o' u, blk_diff P = false -> fit_rows o rows = (o', u) -> i_params o' = P /\ (forall s, i_state o' = Some s -> b_slices s = sl) /\
      (u = Ok tt -> rows <> [] -> exists s, i_state o' = Some s).
  Proof.
    intros HS rows. induction rows as [|x rows IH]; intros o Hr HP HI o' u HD; cbn [fit_rows].
    - intros [= <- <-]. split; [auto|]. split; [auto|]. congruence.
    - inversion Hr; subst. unfold fit_row. cbn [c_diff Block]. rewrite HD.
      assert (A : forall o1 v, absorb o x = (o1, v) -> i_params o1 = i_params o /\ (forall s, i_state o1 = Some s -> b_slices s = sl) /\ (v = Ok tt -> exists s, i_state o1 = Some s)).
      { unfold absorb. destruct (i_state o) as [s|] eqn:ES.
        - destruct (c_update (Block L) (i_params o) s x) as [s'|e] eqn:EU; intros o1 v [= <- <-]; cbn [i_params i_state].
          + split; [auto|]. split; [|eauto]. intros t [= <-]. rewrite (slices_kept _ _ _ _ EU). auto.
          + split; [auto|]. split; [|discriminate]. intros t Ht. apply HI. congruence.
        - destruct (c_init (Block L) (i_params o) (length x)) as [s0|e] eqn:EI.
          + assert (B0 : b_slices s0 = sl).
            { cbn in EI. unfold blk_init in EI. rewrite HS in EI. cbn [bind] in EI. destruct (ewa_burn_n _); [|discriminate]. cbn [bind] in EI. destruct (mapM _ _); [|discriminate]. cbn [bind] in EI. now injection EI as <-. }
            destruct (c_update (Block L) (i_params o) s0 x) as [s'|e] eqn:EU; intros o1 v [= <- <-]; cbn [i_params i_state].
            * split; [auto|]. split; [|eauto]. intros t [= <-]. rewrite (slices_kept _ _ _ _ EU). auto.
            * split; [auto|]. split; [|discriminate]. intros t [= <-]. auto.
          + intros o1 v [= <- <-]. cbn [i_params i_state]. split; [auto|]. split; [|discriminate]. intros t Ht. apply HI. congruence. }
      destruct (absorb o x) as [o1 v] eqn:EA. destruct (A o1 v eq_refl) as (A1 & A2 & A3). destruct v as [[]|e].
      + intros E. destruct (IH o1 H2 A1 A2 o' u ltac:(congruence) E) as (B1 & B2 & B3). split; [congruence|]. split; [auto|]. intros -> _.
        destruct rows as [|y rows]; [injection E as <-; auto|]. apply B3; auto. discriminate.
      + intros [= <- <-]. split; [auto|]. split; [auto|discriminate].
  Qed.
End Mismatch.

(** ** The rule.  [sl] are the blocks [a, b) of coordinates.  After rows of length p, an observation [x] of any length is
    accepted iff every block of at least two coordinates finds in [x[a:b]] either all of them or exactly one (which is
    broadcast); otherwise it is rejected and nothing changes. *)
Theorem C08_block_rule :
  forall (N : Num) (L : LinAlg N) P p rows o x sl,
    blk_diff P = false -> 1 <= p -> rows_of_length p rows -> rows <> [] -> slices (blk_n_blocks P) p = Ok sl ->
    partial_fit (new (C := Block L) P) (In2 rows) = (o, Ok tt) ->
    let whole_or_one := forall a b, In (a, b) sl ->
      let l := Nat.min b (length x) - a in l = b - a \/ l = 1 \/ b - a = 1 in
    (whole_or_one -> exists o', partial_fit o (In1 x) = (o', Ok tt) /\ forall n, n_samples_ o = Ok n -> n_samples_ o' = Ok (S n)) /\
    (~ whole_or_one -> exists e, partial_fit o (In1 x) = (o, Err e)).
Proof.
  intros N L P p rows o x sl HD Hp Hr Hne HS E whole.
  assert (W : whole <-> Forall (fits x) sl).
  { subst whole. rewrite Forall_forall. unfold fits.
    assert (SL : forall a b, length (slice a b x) = Nat.min b (length x) - a) by (intros; unfold slice; rewrite firstn_length, skipn_length; lia).
    split.
    - intros H [a b] HI. cbn [fst snd]. rewrite SL. now apply H.
    - intros H a b HI. specialize (H (a, b) HI). cbn [fst snd] in H. now rewrite SL in H. }
  unfold partial_fit in E. cbn [as_rows] in E.
  destruct (fit_rows_slices L p P sl HS rows (new (C := Block L) P) Hr eq_refl ltac:(discriminate) o (Ok tt) HD E) as (E1 & E2 & E3).
  destruct (E3 eq_refl Hne) as (s & ES). pose proof (E2 s ES) as SLs.
  pose proof (fit_rows_good _ _ (Block_behaved_by L) p (new (C := Block L) P) rows Hp (new_good (C := Block L) (blk_wf) p P) Hr) as G. rewrite E in G. destruct G as [G _].
  destruct (G s ES) as [(W1 & W2 & W3 & _) _].
  destruct (update_rule (b_n s) (b_r s) (b_burn s) x (b_subs s) (b_slices s)) as [U1 U2]; auto.
  { eapply Forall_impl; [|exact W2]. cbn. intros; lia. }
  rewrite SLs in U1, U2. rewrite <- W in U1, U2.
  unfold partial_fit. cbn [as_rows fit_rows]. unfold fit_row. rewrite E1. cbn [c_diff Block]. rewrite HD. unfold absorb. rewrite ES. cbn [c_update Block]. unfold blk_update. rewrite SLs.
  split; intros K.
  - destruct (U1 K) as (subs & ->). cbn [bind]. eexists. split; [reflexivity|]. unfold n_samples_. rewrite ES. cbn [i_state c_nsamples Block b_n]. intros n [= ->]. reflexivity.
  - destruct (U2 K) as (e & ->). cbn [bind]. exists e. reflexivity.
Qed.
(** In particular, coordinates beyond the p-th are ignored. *)
Theorem C08_block_surplus_ignored :
  forall (N : Num) (L : LinAlg N) P p rows o x,
    blk_diff P = false -> 1 <= p -> rows_of_length p rows -> rows <> [] ->
    partial_fit (new (C := Block L) P) (In2 rows) = (o, Ok tt) -> p <= length x ->
    partial_fit o (In1 x) = partial_fit o (In1 (firstn p x)) /\ snd (partial_fit o (In1 x)) = Ok tt.
Proof.
  intros N L P p rows o x HD Hp Hr Hne E Hx.
  assert (HS : exists sl, slices (blk_n_blocks P) p = Ok sl).
  { unfold slices, split_sizes. destruct (Z.leb_spec (Z.min (Z.max 1 (blk_n_blocks P)) (Z.of_nat p)) 0); [lia|]. cbn. eauto. }
  destruct HS as (sl & HS). pose proof (slices_spec _ _ _ Hp HS) as HB.
  destruct (C08_block_rule N L P p rows o x sl HD Hp Hr Hne HS E) as [R1 _].
  destruct R1 as (o' & R1 & _).
  { intros a b HI. rewrite Forall_forall in HB. specialize (HB _ HI). cbn [fst snd] in HB. left. lia. }
  split; [|now rewrite R1].
  unfold partial_fit in E. cbn [as_rows] in E.
  destruct (fit_rows_slices L p P sl HS rows (new (C := Block L) P) Hr eq_refl ltac:(discriminate) o (Ok tt) HD E) as (E1 & E2 & E3).
  destruct (E3 eq_refl Hne) as (s & ES). pose proof (E2 s ES) as SLs.
  unfold partial_fit. cbn [as_rows fit_rows]. unfold fit_row. rewrite E1. cbn [c_diff Block]. rewrite HD. unfold absorb. rewrite ES. cbn [c_update Block]. unfold blk_update. rewrite SLs.
  assert (Z : forall subs, zipM (fun sub ab => ewa_update sub (slice (fst ab) (snd ab) x)) subs sl = zipM (fun sub ab => ewa_update sub (slice (fst ab) (snd ab) (firstn p x))) subs sl).
  { clear - HB. induction HB as [|[a b] sl Hab HB IH]; intros [|sub subs]; cbn [zipM]; auto. rewrite IH.
    assert (SE : slice a b (firstn p x) = slice a b x).
    { unfold slice. rewrite skipn_firstn_comm, firstn_firstn. cbn [fst snd] in Hab. f_equal. lia. }
    cbn [fst snd]. now rewrite SE. }
  now rewrite Z.
Qed.
(** Both sides of the rule occur: three coordinates in blocks of two and one. *)
Example C08_block_rule_example : slices 2 3 = Ok [(0, 2); (2, 3)].
Proof. reflexivity. Qed.

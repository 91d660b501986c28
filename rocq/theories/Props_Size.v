(** * C74: no stored window: the state does not grow with the stream (law-free) *)
From Coq Require Import ZArith Bool String List Lia Arith.
From Verif Require Import Num NumFloat Numpy PyVal LinalgModel StateModel BaseModel Estimators RegistryModel
  Spec ListLemmas BaseProofs Shapes ClassShapes BlockShapes StreamProofs RegistryProofs Props_Stream.
Import ListNotations.
Local Open Scope string_scope.

(** Every registered class, after any history of calls (accepted or not): the checkpoint holds at most 4 p^2 + 2 p + 6
    scalars, however long the stream was. *)
Theorem C74_state_does_not_grow :
  forall (N : Num) (L : LinAlg N), la_shapes L -> forall fuel k, In k (registry L fuel) ->
  forall P p (cs : list (call (rg_class k))) j, 1 <= p -> history_of_length p cs ->
    get_state (fst (run (new P) cs)) = Ok (Some j) -> state_size j <= 4 * (p * p) + 2 * p + 6.
Proof.
  intros N L HL fuel k Hk P p cs j Hp Hh Hg. destruct (registry_behaved L HL fuel k Hk) as (wf & R & HB).
  pose proof (run_good wf R HB p (new P) cs Hp (new_good wf p P) Hh) as [G _].
  unfold get_state in Hg. destruct (i_state _) as [s|]; [|discriminate]. apply bind_ok in Hg. destruct Hg as (j' & E & [= ->]).
  exact (bh_size _ _ _ HB p s j Hp (proj1 (G s eq_refl)) E).
Qed.
(** The same of a pickle: the state and at most one previous row. *)
Theorem C74_pickle_does_not_grow :
  forall (N : Num) (L : LinAlg N), la_shapes L -> forall fuel k, In k (registry L fuel) ->
  forall P p (cs : list (call (rg_class k))) d, 1 <= p -> history_of_length p cs ->
    getstate (fst (run (new P) cs)) = Ok d ->
    (forall j, pk_state d = Some j -> state_size j <= 4 * (p * p) + 2 * p + 6) /\
    (forall l, pk_prev d = Some l -> length l = p).
Proof.
  intros N L HL fuel k Hk P p cs d Hp Hh Hg. unfold getstate in Hg. apply bind_ok in Hg. destruct Hg as (st & E & [= <-]). cbn [pk_state pk_prev].
  split; [intros j ->; now apply (C74_state_does_not_grow N L HL fuel k Hk P p cs j)|].
  intros l. destruct (registry_behaved L HL fuel k Hk) as (wf & R & HB).
  pose proof (run_good wf R HB p (new P) cs Hp (new_good wf p P) Hh) as [_ G].
  destruct (i_prev _) as [x|]; [|discriminate]. intros [= <-]. rewrite map_length. now apply G.
Qed.

(** ** The classes that promise less than p^2 *)
Definition only_fits {N} {C : EstClass N} (cs : list (call C)) : Prop := Forall (fun c => match c with SetParams _ _ => False | _ => True end) cs.

Section Inv.
  Context {N : Num} {C : EstClass N} (p : nat) (P : c_P C) (Inv : c_St C -> Prop).
  Context (Hi : forall s, c_init C P p = Ok s -> Inv s) (Hu : forall s x s', Inv s -> length x = p -> c_update C P s x = Ok s' -> Inv s').
  Definition kept (o : inst C) : Prop := i_params o = P /\ (forall s, i_state o = Some s -> Inv s) /\ (forall x, i_prev o = Some x -> length x = p).
  Lemma absorb_kept o x : kept o -> length x = p -> kept (fst (absorb o x)).
  Proof.
    destruct o as [P0 st nf pv]. intros (E & K & B) Hx. cbn in E. subst P0. unfold absorb. cbn [i_state i_params i_nfeat i_prev] in *. destruct st as [s|].
    - destruct (c_update C P s x) as [s1|] eqn:EU; cbn [fst]; (split; [reflexivity|split]); cbn [i_state i_prev]; auto.
      intros s' [= <-]. eapply Hu; eauto.
    - rewrite Hx. destruct (c_init C P p) as [s0|] eqn:EI; cbn [fst]; [|split; [reflexivity|split; [discriminate|auto]]].
      destruct (c_update C P s0 x) as [s1|] eqn:EU; cbn [fst]; (split; [reflexivity|split]); cbn [i_state i_prev]; auto; intros s' [= <-]; [eapply Hu; eauto|auto].
  Qed.
  Lemma fit_row_kept o x : kept o -> length x = p -> kept (fst (fit_row o x)).
  Proof.
    intros K Hx. pose proof K as (E & K1 & K2). unfold fit_row. destruct (c_diff C (i_params o)); [|now apply absorb_kept].
    destruct (i_prev o) as [pv|] eqn:EP.
    - destruct (vsub x pv) as [d|] eqn:ED; cbn [fst]; [|exact K]. apply absorb_kept.
      + split; [exact E|]. split; [exact K1|]. cbn [i_prev]. now intros x' [= <-].
      + pose proof (vsub_sh (fun _ => True) p x pv Hx (K2 pv eq_refl)) as Hd. now rewrite ED in Hd.
    - cbn [fst]. split; [exact E|]. split; [exact K1|]. cbn [i_prev]. now intros x' [= <-].
  Qed.
  Lemma fit_rows_kept rows : forall o, kept o -> rows_of_length p rows -> kept (fst (fit_rows o rows)).
  Proof.
    induction rows as [|x rows IH]; intros o K Hr; [exact K|]. inversion Hr as [|? ? Hx Hr']; subst. cbn [fit_rows].
    pose proof (fit_row_kept o x K Hx) as K'. destruct (fit_row o x) as [o' [u|e]]; cbn [fst] in *; auto.
  Qed.
  Lemma run_kept cs : forall o, kept o -> history_of_length p cs -> only_fits cs -> kept (fst (run o cs)).
  Proof.
    induction cs as [|c cs IH]; intros o K Hh Hf; [exact K|]. inversion Hh as [|? ? Hc Hh']; subst. inversion Hf as [|? ? Fc Hf']; subst.
    assert (K' : kept (fst (do_call o c))).
    { destruct c as [X|X|P']; [| |contradiction].
      - cbn [do_call]. unfold partial_fit. cbn [call_rows] in Hc. destruct (as_rows X) as [rows|]; [now apply fit_rows_kept|exact K].
      - cbn [do_call]. unfold fit. destruct K as (E & K1 & K2).
        assert (K0 : kept (mkInst (i_params o) None (i_nfeat o) None)) by (split; [exact E|split; discriminate]).
        destruct X; try exact K0. unfold partial_fit. cbn [as_rows call_rows] in *. now apply fit_rows_kept. }
    cbn [run]. destruct (do_call o c) as [o' r]. cbn [fst] in K'. specialize (IH o' K' Hh' Hf'). destruct (run o' cs). exact IH.
  Qed.
  Lemma new_kept : kept (new P).
  Proof. split; [reflexivity|split; discriminate]. Qed.
End Inv.

(** DiagonalCovariance keeps two numbers per variable and four more. *)
Theorem C74_diagonal_state :
  forall (N : Num) P p (cs : list (call (Diagonal (N := N)))) j, 1 <= p -> history_of_length p cs -> only_fits cs ->
    get_state (fst (run (new (C := Diagonal (N := N)) P) cs)) = Ok (Some j) -> state_size j = 2 * p + 4.
Proof.
  intros N P p cs j Hp Hh Hf Hg.
  assert (H1 : forall s, c_init (Diagonal (N := N)) P p = Ok s -> conforms (sch_diag p) s).
  { cbn [c_init Diagonal dict_class]. unfold diag_init. destruct (ewa_burn_n _); cbn; [|discriminate]. intros s [= <-]. conf_done. }
  assert (H2 : forall s x s', conforms (sch_diag p) s -> length x = p -> c_update (Diagonal (N := N)) P s x = Ok s' -> conforms (sch_diag p) s').
  { intros s x s' H Hx HU. cbn [c_update Diagonal dict_class] in HU.
    assert (K : holds (fun _ => True) (conforms (sch_diag p)) (diag_update s x)).
    { unfold sch_diag in H. open_conf H. unfold diag_update. red_get. repeat sh_step p.
      eapply holds_bind with (Q := fun mv => length (fst mv) = p /\ length (snd mv) = p).
      - destruct (Nat.leb _ _); repeat sh_step p; simpl; auto.
      - intros [m v] [H1' H2']. cbn [fst snd] in *. cbn [holds]. conf_done. }
    rewrite HU in K. exact K. }
  destruct (run_kept (C := Diagonal (N := N)) p P (conforms (sch_diag p)) H1 H2 cs (new P) (new_kept p P _) Hh Hf) as (_ & K & _).
  unfold get_state in Hg. destruct (i_state _) as [s|]; [|discriminate]. apply bind_ok in Hg. destruct Hg as (j' & E & [= ->]).
  rewrite (schema_size_ok (sch_diag p) s j (K s eq_refl) E). unfold schema_size. cbn -[Nat.mul]. lia.
Qed.

(** FactorCovariance with k factors keeps min(k, p) + 2 numbers per variable and five more. *)
Theorem C74_factor_state :
  forall (N : Num) P p (cs : list (call (Factor (N := N)))) j, 1 <= p -> history_of_length p cs -> only_fits cs ->
    get_state (fst (run (new (C := Factor (N := N)) P) cs)) = Ok (Some j) ->
    state_size j = p * (Nat.min (Z.to_nat (fac_k P)) p + 2) + 5.
Proof.
  intros N P p cs j Hp Hh Hf Hg. set (k := Nat.min (Z.to_nat (fac_k P)) p).
  assert (H1 : forall s, c_init (Factor (N := N)) P p = Ok s -> conforms (sch_fac k p) s).
  { cbn [c_init Factor dict_class]. unfold fac_init. destruct (Z.ltb _ _); [discriminate|]. intros s [= <-].
    assert (E : Z.to_nat (Z.min (fac_k P) (Z.of_nat p)) = k) by (unfold k; lia). rewrite E. conf_done. }
  assert (H2 : forall s x s', conforms (sch_fac k p) s -> length x = p -> c_update (Factor (N := N)) P s x = Ok s' -> conforms (sch_fac k p) s').
  { intros s x s' H Hx HU. cbn [c_update Factor dict_class] in HU. pose proof (fac_update_sh (fun _ => True) k p s x Hp H Hx) as K.
    rewrite HU in K. apply K. }
  destruct (run_kept (C := Factor (N := N)) p P (conforms (sch_fac k p)) H1 H2 cs (new P) (new_kept p P _) Hh Hf) as (_ & K & _).
  unfold get_state in Hg. destruct (i_state _) as [s|]; [|discriminate]. apply bind_ok in Hg. destruct Hg as (j' & E & [= ->]).
  rewrite (schema_size_ok (sch_fac k p) s j (K s eq_refl) E). unfold schema_size. cbn -[Nat.mul]. nia.
Qed.

(** BlockCovariance with k blocks keeps at most p (p/k + 4) + 4 numbers (documented as O(p b), b the block size). *)
Theorem C74_block_state :
  forall (N : Num) (L : LinAlg N) P p (cs : list (call (Block L))) j, 1 <= p -> history_of_length p cs -> only_fits cs ->
    get_state (fst (run (new (C := Block L) P) cs)) = Ok (Some j) ->
    let k := Z.to_nat (Z.min (Z.max 1 (blk_n_blocks P)) (Z.of_nat p)) in
    state_size j <= p * (p / k + 4) + 4.
Proof.
  intros N L P p cs j Hp Hh Hf Hg k.
  destruct (slices (blk_n_blocks P) p) as [sl|] eqn:ES.
  2:{ exfalso. unfold slices, split_sizes in ES. destruct (Z.leb_spec (Z.min (Z.max 1 (blk_n_blocks P)) (Z.of_nat p)) 0); [lia|discriminate]. }
  pose proof (Block_behaved_by L) as HB.
  assert (H1 : forall s, c_init (Block L) P p = Ok s -> blk_wf p s /\ b_slices s = sl).
  { intros s HI. split; [exact (proj1 (bh_init _ _ _ HB P p s Hp HI))|]. cbn [c_init Block] in HI. unfold blk_init in HI. rewrite ES in HI. cbn [bind] in HI.
    apply bind_ok in HI. destruct HI as (nb & _ & HI). apply bind_ok in HI. destruct HI as (subs & _ & HI). now injection HI as <-. }
  assert (H2 : forall s x s', blk_wf p s /\ b_slices s = sl -> length x = p -> c_update (Block L) P s x = Ok s' -> blk_wf p s' /\ b_slices s' = sl).
  { intros s x s' [W E] Hx HU. split; [exact (proj1 (bh_update _ _ _ HB P p s x s' Hp W Hx HU))|]. cbn [c_update Block] in HU. unfold blk_update in HU.
    apply bind_ok in HU. destruct HU as (subs & _ & HU). now injection HU as <-. }
  destruct (run_kept (C := Block L) p P (fun s => blk_wf p s /\ b_slices s = sl) H1 H2 cs (new P) (new_kept p P _) Hh Hf) as (_ & K & _).
  unfold get_state in Hg. destruct (i_state _) as [s|]; [|discriminate]. apply bind_ok in Hg. destruct Hg as (j' & E & [= ->]).
  destruct (K s eq_refl) as [W Esl]. cbn [c_get Block] in E. rewrite (blk_size p s j W E), Esl.
  pose proof (slices_sum _ _ _ ES) as HS. pose proof (slices_spec _ _ _ Hp ES) as HS2.
  assert (HM : Forall (fun ab => snd ab - fst ab <= S (p / k)) sl).
  { unfold slices in ES. destruct (split_sizes p _) as [sz|] eqn:EZ; [|discriminate]. injection ES as <-.
    destruct (split_sizes_spec _ _ _ EZ) as (_ & _ & _ & B). fold k in B.
    assert (B' : Forall (fun b => b <= S (p / k)) sz) by (apply Forall_forall; intros b Hb; destruct (B b Hb); lia).
    clear -B'. generalize 0. induction B' as [|b sz Hb B' IH]; intros a; cbn [bounds]; constructor; [cbn [fst snd]; lia|apply IH]. }
  assert (Q : list_sum (map (fun ab => 2 + (snd ab - fst ab) + (snd ab - fst ab) * (snd ab - fst ab)) sl) <= (p / k + 4) * p).
  { rewrite <- HS at 2. clear -HM HS2. induction HM as [|ab l Hab H IH]; [cbn; lia|]. inversion HS2 as [|? ? B HS2']; subst. specialize (IH HS2').
    cbn [map]. unfold list_sum in *. cbn [fold_right]. set (b := snd ab - fst ab) in *. set (q := p / k) in *. assert (1 <= b) by (unfold b; lia).
    assert (2 + b + b * b <= (q + 4) * b) by nia. lia. }
  lia.
Qed.

(** The hypotheses are met by every stream of rows of the same length, for instance of Ewa. *)
Example C74_met : forall (N : Num) (rows : list (vec N)) p, rows_of_length p rows ->
  history_of_length p [PartialFit (Ewa (N := N)) (In2 rows)] /\ only_fits [PartialFit (Ewa (N := N)) (In2 rows)].
Proof. intros N rows p H. split; repeat constructor. exact H. Qed.
(** ... and a checkpoint of the announced size is reached (p = 2, two blocks, one row). *)
Example C74_block_example : forall L : LinAlg NumF,
  match get_state (fst (run (new (C := Block L) (mkBlkP (N := NumF) (nlit 5 2) 2 false)) [PartialFit (Block L) (In1 [n1; n0])])) with
  | Ok (Some j) => Nat.eqb (state_size j) 12 | _ => false end = true.
Proof. intros L. vm_compute. reflexivity. Qed.

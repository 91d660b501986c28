(** * C106, continued: what a NaN or an infinity does to covariance_ *)
From Coq Require Import ZArith Bool String List Arith Lia.
From Verif Require Import Num Numpy PyVal LinalgModel StateModel BaseModel Estimators RegistryModel Spec.
From Verif Require Import ListLemmas BaseProofs RegistryProofs Shapes ClassShapes Props_Missing.
Import ListNotations.
Local Open Scope string_scope.
Local Open Scope list_scope.

(** ** Reading entries *)
Lemma mget_tab {N : Num} p q (f : nat -> nat -> N) i j : i < p -> j < q -> mget (tab2 p q f) i j = f i j.
Proof. intros Hi Hj. unfold mget. now rewrite nth_tab2, nth_tab by auto. Qed.
Lemma nrows_tab {N : Num} p q (f : nat -> nat -> N) : nrows (tab2 p q f) = p.
Proof. apply tab_length. Qed.
Lemma ncols_tab {N : Num} p q (f : nat -> nat -> N) : 1 <= p -> ncols (tab2 p q f) = q.
Proof. intros H. destruct p; [lia|]. unfold ncols, tab2, tab. cbn [seq map hd]. now rewrite map_length, seq_length. Qed.
Lemma transpose_tab {N : Num} p (f : nat -> nat -> N) : 1 <= p -> transpose (tab2 p p f) = tab2 p p (fun i j => f j i).
Proof. intros H. unfold transpose. rewrite ncols_tab, nrows_tab by exact H. apply tab2_ext. intros. now rewrite mget_tab. Qed.
Lemma symmetric_tab {N : Num} p (f : nat -> nat -> N) : 1 <= p -> to_symmetric (tab2 p p f) = Ok (tab2 p p (fun i j => ndiv (nadd (f i j) (f j i)) (nofZ 2))).
Proof. intros H. unfold to_symmetric. rewrite transpose_tab by exact H. rewrite madd_tab. cbn [bind]. now rewrite mdivs_tab. Qed.
Lemma diag_tab {N : Num} p (f : nat -> nat -> N) : 1 <= p -> diagonal (tab2 p p f) = tab p (fun i => f i i).
Proof. intros H. unfold diagonal. rewrite nrows_tab, ncols_tab, Nat.min_id by exact H. apply tab_ext. intros. now rewrite mget_tab. Qed.
Lemma mmul_tab {N : Num} p q (f g : nat -> nat -> N) : mmul (tab2 p q f) (tab2 p q g) = Ok (tab2 p q (fun i j => nmul (f i j) (g i j))). Proof. apply bc2_tab. Qed.
Lemma mdiv_tab {N : Num} p q (f g : nat -> nat -> N) : mdiv (tab2 p q f) (tab2 p q g) = Ok (tab2 p q (fun i j => ndiv (f i j) (g i j))). Proof. apply bc2_tab. Qed.
Lemma vdiv_tab {N : Num} p (f g : nat -> N) : vdiv (tab p f) (tab p g) = Ok (tab p (fun i => ndiv (f i) (g i))). Proof. apply bc_tab. Qed.
Lemma mdiag_tab {N : Num} p (f : nat -> N) : mdiag (tab p f) = tab2 p p (fun i j => if Nat.eqb i j then f i else n0).
Proof. unfold mdiag. rewrite tab_length. apply tab2_ext. intros i j Hi Hj. destruct (Nat.eqb i j); [|reflexivity]. unfold vget. now rewrite nth_tab. Qed.

(** ** Specification *)
(** Column and row [i] of covariance_ hold nothing else. *)
Definition covariance_spoiled {N : Num} (bad : N -> Prop) (C : EstClass N) : Prop :=
  forall (P : c_P C) p rows o, rows_of_length p rows -> partial_fit (new P) (In2 rows) = (o, Ok tt) -> forall i, i < p ->
    bad_in bad (absorbed (c_diff C P) rows) i -> forall c, covariance_ o = Ok c ->
    is_mat p p c /\ forall j, j < p -> bad (mget c i j) /\ bad (mget c j i).
(** No entry of covariance_ is spared (whenever [late] holds of the parameters and the absorbed rows). *)
Definition covariance_lost {N : Num} (bad : N -> Prop) (C : EstClass N) (late : c_P C -> list (vec N) -> Prop) : Prop :=
  forall (P : c_P C) p rows o, rows_of_length p rows -> partial_fit (new P) (In2 rows) = (o, Ok tt) -> forall i, i < p ->
    bad_in bad (absorbed (c_diff C P) rows) i -> late P (absorbed (c_diff C P) rows) -> forall c, covariance_ o = Ok c ->
    is_mat p p c /\ forall a b, a < p -> b < p -> bad (mget c a b).
(** No entry of location_ either. *)
Definition location_lost {N : Num} (bad : N -> Prop) (C : EstClass N) (late : c_P C -> list (vec N) -> Prop) : Prop :=
  forall (P : c_P C) p rows o, rows_of_length p rows -> partial_fit (new P) (In2 rows) = (o, Ok tt) -> forall i, i < p ->
    bad_in bad (absorbed (c_diff C P) rows) i -> late P (absorbed (c_diff C P) rows) ->
    exists v, location_ o = Ok v /\ length v = p /\ forall a, a < p -> bad (vget v a).

Section Cov.
  Context {N : Num} (L : LinAlg N) (bad : N -> Prop) (HB : contaminates bad).
  Let al := ct_add_l bad HB. Let ar := ct_add_r bad HB. Let sl := ct_sub_l bad HB. Let sr := ct_sub_r bad HB.
  Let ml := ct_mul_l bad HB. Let mr := ct_mul_r bad HB. Let dl := ct_div_l bad HB.

  Definition cross_bad (p i : nat) (m : nat -> N) (c : nat -> nat -> N) : Prop := bad (m i) /\ forall j, j < p -> bad (c i j) /\ bad (c j i).
  Definition has (p n : nat) (m : nat -> N) (c : nat -> nat -> N) (s : dict N) : Prop :=
    getI "n_samples" s = Ok n /\ getI "n_dim" s = Ok p /\ getV "mean" s = Ok (tab p m) /\ getM "cov" s = Ok (tab2 p p c).
  Definition cov_step (upd : dict N -> vec N -> res (dict N)) : Prop :=
    forall p s x s' m c n, has p n m c s -> upd s (tab p x) = Ok s' ->
      exists m' c', has p (S n) m' c' s' /\ forall i, i < p -> bad (x i) \/ cross_bad p i m c -> cross_bad p i m' c'.

  Lemma emp_cov_app p s x out m c n extra : has p n m c s -> emp_update s (tab p x) = Ok out ->
    exists m' c', has p (S n) m' c' (out ++ extra) /\ forall i, i < p -> bad (x i) \/ cross_bad p i m c -> cross_bad p i m' c'.
  Proof.
    intros (Hn & Hd & Hm & Hc). unfold emp_update. rewrite Hn, Hm, Hc, Hd. cbn [bind]. intros H.
    rewrite vsub_tab in H. cbn [bind] in H. rewrite vdivs_tab, vadd_tab in H. cbn [bind] in H. rewrite vsub_tab in H. cbn [bind] in H.
    rewrite vdivs_tab, mmap_tab, outer_tab, madd_tab in H. cbn [bind] in H. injection H as <-.
    eexists _, _. split; [split; [reflexivity|split; [reflexivity|split; reflexivity]]|].
    intros i Hi Hb. split; [destruct Hb as [Hb|[Hb _]]; auto|]. intros j Hj. destruct Hb as [Hb|[Hb _]]; split; auto 8.
  Qed.
  Lemma emp_cov : cov_step emp_update.
  Proof. intros p s x s' m c n H E. destruct (emp_cov_app p s x s' m c n [] H E) as (m' & c' & A & B). rewrite app_nil_r in A. eauto. Qed.
  Ltac get1 H := match type of H with bind (?g ?k ?s) _ = Ok _ => destruct (g k s); cbn [bind] in H; [|discriminate H] end.
  Ltac burn Hs H := match type of H with bind (emp_update ?s ?x) _ = Ok _ =>
      let E := fresh in destruct (emp_update s x) eqn:E; cbn [bind] in H; [|discriminate H]; injection H as <-; exact (emp_cov_app _ _ _ _ _ _ _ _ Hs E) end.
  Ltac tabs2 H := repeat (rewrite ?vsub_tab, ?vscale_tab, ?vdivs_tab, ?vadd_tab, ?vmul_tab, ?outer_tab, ?mscale_tab, ?madd_tab, ?msub_tab in H; cbn [bind] in H).
  Ltac close2 := eexists _, _; split; [split; [reflexivity|split; [reflexivity|split; reflexivity]]|];
    intros i Hi Hb; split; [destruct Hb as [Hb|[Hb _]]; auto 8|]; intros j Hj; destruct Hb as [Hb|[Hb _]]; split; auto 10.
  Lemma ewa_cov : cov_step ewa_update.
  Proof.
    intros p s x s' m c n Hs. pose proof Hs as (Hn & Hd & Hm & Hc). unfold ewa_update. rewrite Hn. cbn [bind]. intros H.
    get1 H. get1 H. destruct (Nat.ltb _ _); [burn Hs H|]. rewrite Hm, Hc, Hd in H. cbn [bind] in H. tabs2 H. injection H as <-. close2.
  Qed.
  Lemma lw_cov_step : cov_step lw_update.
  Proof.
    intros p s x s' m c n Hs. pose proof Hs as (Hn & Hd & Hm & Hc). unfold lw_update. rewrite Hn. cbn [bind]. intros H.
    get1 H. get1 H. get1 H. destruct (Nat.ltb _ _); [burn Hs H|]. rewrite Hm, Hc, Hd in H. cbn [bind] in H. tabs2 H. injection H as <-. close2.
  Qed.
  Lemma ada_cov_step : cov_step (ada_update L).
  Proof.
    intros p s x s' m c n Hs. pose proof Hs as (Hn & Hd & Hm & Hc). unfold ada_update. rewrite Hn. cbn [bind]. intros H.
    get1 H. get1 H. get1 H. get1 H. destruct (Nat.ltb _ _); [burn Hs H|]. rewrite Hm, Hc, Hd in H. cbn [bind] in H. tabs2 H.
    destruct (try_invert L _); cbn [bind] in H; [|discriminate]. destruct (vecmat _ _); cbn [bind] in H; [|discriminate]. destruct (vdot _ _); cbn [bind] in H; [|discriminate].
    tabs2 H. injection H as <-. close2.
  Qed.
  Lemma hub_cov_step P : cov_step (hub_update L P).
  Proof.
    intros p s x s' m c n Hs. pose proof Hs as (Hn & Hd & Hm & Hc). unfold hub_update. rewrite Hn. cbn [bind]. intros H.
    get1 H. get1 H. destruct (Nat.ltb _ _); [burn Hs H|]. rewrite Hm, Hc, Hd in H. cbn [bind] in H. tabs2 H.
    destruct (try_invert L _); cbn [bind] in H; [|discriminate]. destruct (vecmat _ _); cbn [bind] in H; [|discriminate]. destruct (vdot _ _); cbn [bind] in H; [|discriminate].
    destruct (if nleb _ _ then _ else _) as [w|]; cbn [bind] in H; [|discriminate]. tabs2 H. injection H as <-. close2.
  Qed.

  Definition cov_inv (p : nat) (s : dict N) (pre : list (vec N)) : Prop :=
    exists m c, has p (length pre) m c s /\ forall i, i < p -> bad_in bad pre i -> cross_bad p i m c.
  Lemma cov_inv_step p upd s x s' pre : cov_step upd -> length x = p -> cov_inv p s pre -> upd s x = Ok s' -> cov_inv p s' (pre ++ [x]).
  Proof.
    intros HS Hx (m & c & Hh & Hb) E. rewrite (vec_tab x p Hx) in E.
    destruct (HS p s (vget x) s' m c (length pre) Hh E) as (m' & c' & E1 & E2). exists m', c'.
    split; [replace (length (pre ++ [x])) with (S (length pre)) by (rewrite app_length; cbn [length]; lia); exact E1|].
    intros i Hi H. apply E2; [exact Hi|]. destruct (bad_in_snoc bad pre x i H); [right; now apply Hb|now left].
  Qed.
  Lemma cov_spoiled_by name (PT : Type) diff init upd cov :
    (forall P p s, init P p = Ok s -> cov_inv p s []) -> (forall P, cov_step (upd P)) ->
    (forall P p n s m c r, 1 <= p -> has p n m c s -> cov P s = Ok r ->
      exists c', r = tab2 p p c' /\ forall i, i < p -> cross_bad p i m c -> forall j, j < p -> bad (c' i j) /\ bad (c' j i)) ->
    covariance_spoiled bad (dict_class (N := N) name PT diff init upd cov).
  Proof.
    intros HI HS HC P p rows o Hr E i Hi Hb r. cbn [c_P dict_class] in P.
    destruct (follow_stream (C := dict_class name PT diff init upd cov) P p (cov_inv p) (HI P p)
      (fun s x s' pre Hx Hs Hu => cov_inv_step p (upd P) s x s' pre (HS P) Hx Hs Hu) rows o Hr E) as (s & Es & Ep & m & c & Hh & Hbm).
    { intros H. rewrite H in Hb. exact (bad_in_nil bad i Hb). }
    unfold covariance_. destruct (fitted_state o) as [s1|] eqn:Ef; cbn [bind]; [|discriminate].
    assert (s1 = s) as ->. { unfold fitted_state in Ef. rewrite Es in Ef. destruct (get_or _ _); cbn [bind] in Ef; [|discriminate]. destruct (Nat.ltb _ _); [discriminate|]. now injection Ef. }
    rewrite Ep. cbn [c_cov dict_class]. destruct (cov P s) as [r0|] eqn:Ec; cbn [bind]; [|discriminate].
    destruct (HC P p _ s m c r0 ltac:(lia) Hh Ec) as (c' & -> & Hc'). rewrite symmetric_tab by lia. intros [= <-].
    split; [apply is_mat_tab2|]. intros j Hj. rewrite !mget_tab by auto. destruct (Hc' i Hi (Hbm i Hi Hb) j Hj). split; auto.
  Qed.
  Lemma zeros_cov_inv p (s : dict N) : has p 0 (fun _ => n0) (fun _ _ => n0) s -> cov_inv p s [].
  Proof. intros H. exists (fun _ => n0), (fun _ _ => n0). split; [exact H|]. intros i _ Hb. destruct (bad_in_nil bad i Hb). Qed.
  Lemma ewa_cov_inv p r s : ewa_init (N := N) p r = Ok s -> cov_inv p s [].
  Proof. unfold ewa_init. destruct (ewa_burn_n r); cbn [bind]; [|discriminate]. intros [= <-]. apply zeros_cov_inv. repeat split; reflexivity. Qed.
  Lemma ewa_cov_inv_app p r extra s : (d <- ewa_init (N := N) p r ;; Ok (d ++ extra)) = Ok s -> cov_inv p s [].
  Proof. unfold ewa_init. destruct (ewa_burn_n r); cbn [bind]; [|discriminate]. intros [= <-]. apply zeros_cov_inv. repeat split; reflexivity. Qed.
  Lemma plain_cov p n s m c r : has p n m c s -> dict_cov s = Ok r -> exists c', r = tab2 p p c' /\ forall i, i < p -> cross_bad p i m c -> forall j, j < p -> bad (c' i j) /\ bad (c' j i).
  Proof. intros (_ & _ & _ & Hc) E. unfold dict_cov in E. rewrite Hc in E. injection E as <-. exists c. split; [reflexivity|]. intros i Hi [_ H] j Hj. now apply H. Qed.
End Cov.

Section Readers.
  Context {N : Num} (L : LinAlg N) (bad : N -> Prop) (HB : contaminates bad).
  Let al := ct_add_l bad HB. Let ar := ct_add_r bad HB. Let sl := ct_sub_l bad HB. Let sr := ct_sub_r bad HB.
  Let ml := ct_mul_l bad HB. Let mr := ct_mul_r bad HB. Let dl := ct_div_l bad HB.
  Lemma meye_tab p : meye (N := N) p = tab2 p p (fun i j => if Nat.eqb i j then n1 else n0). Proof. reflexivity. Qed.
  Lemma lw_read p n s m c r : 1 <= p -> has p n m c s -> lw_cov s = Ok r ->
    exists c', r = tab2 p p c' /\ forall i, i < p -> cross_bad bad p i m c -> forall j, j < p -> bad (c' i j) /\ bad (c' j i).
  Proof.
    intros Hp (_ & Hd & _ & Hc). unfold lw_cov. rewrite Hc, Hd. cbn [bind]. rewrite meye_tab, mscale_tab, msub_tab. cbn [bind].
    destruct (getN_default _ _ _); cbn [bind]; [|discriminate]. destruct (_ || _).
    - intros [= <-]. exists c. split; [reflexivity|]. intros i Hi [_ H] j Hj. now apply H.
    - destruct (getN "r" s); cbn [bind]; [|discriminate]. rewrite !mscale_tab, madd_tab. intros [= <-]. eexists. split; [reflexivity|].
      intros i Hi [_ H] j Hj. cbv beta. destruct (H j Hj). split; auto.
  Qed.
  Lemma oas_read p n s m c r : 1 <= p -> has p n m c s -> oas_cov s = Ok r ->
    exists c', r = tab2 p p c' /\ forall i, i < p -> cross_bad bad p i m c -> forall j, j < p -> bad (c' i j) /\ bad (c' j i).
  Proof.
    intros Hp (_ & Hd & _ & Hc). unfold oas_cov. rewrite Hc, Hd. cbn [bind]. destruct (getN "r" s); cbn [bind]; [|discriminate].
    destruct (py_div _ _); cbn [bind]; [|discriminate]. destruct (matmul _ _); cbn [bind]; [|discriminate]. destruct (py_div _ _); cbn [bind]; [|discriminate].
    rewrite meye_tab, !mscale_tab, madd_tab. intros [= <-]. eexists. split; [reflexivity|]. intros i Hi [_ H] j Hj. cbv beta. destruct (H j Hj). split; auto.
  Qed.
  Lemma shr_read P p n s m c r : 1 <= p -> has p n m c s -> shr_cov P s = Ok r ->
    exists c', r = tab2 p p c' /\ forall i, i < p -> cross_bad bad p i m c -> forall j, j < p -> bad (c' i j) /\ bad (c' j i).
  Proof.
    intros Hp (_ & Hd & _ & Hc). unfold shr_cov. rewrite Hc, Hd. cbn [bind]. destruct (String.eqb _ _); cbn [bind].
    - rewrite meye_tab, !mscale_tab, madd_tab. intros [= <-]. eexists. split; [reflexivity|]. intros i Hi [_ H] j Hj. cbv beta. destruct (H j Hj). split; auto.
    - rewrite diag_tab by exact Hp. rewrite map_tab, outer_tab, mdiv_tab. cbn [bind]. destruct (check_shape _ _); cbn [bind]; [|discriminate].
      repeat rewrite ?mscale_tab, ?nrows_tab, ?ncols_tab, ?madd_tab by exact Hp. intros [= <-]. eexists. split; [reflexivity|]. intros i Hi [_ H] j Hj. cbv beta. destruct (H j Hj). split; auto.
  Qed.
  (** DiagonalCovariance and DCCCovariance *)
  Definition dcc_has (p n : nat) (m h : nat -> N) (Q : nat -> nat -> N) (s : dict N) : Prop :=
    getI "n_samples" s = Ok n /\ getV "mean" s = Ok (tab p m) /\ getV "h" s = Ok (tab p h) /\ getM "Q" s = Ok (tab2 p p Q).
  Definition dcc_inv (p : nat) (s : dict N) (pre : list (vec N)) : Prop :=
    exists m h Q, dcc_has p (length pre) m h Q s /\ forall i, i < p -> bad_in bad pre i -> bad (m i) /\ forall j, j < p -> bad (Q i j) /\ bad (Q j i).
  Lemma dcc_inv_init P p s : dcc_init P p = Ok s -> dcc_inv p s [].
  Proof.
    unfold dcc_init. destruct (ewa_burn_n _); cbn [bind]; [|discriminate]. intros [= <-]. exists (fun _ => n0), (fun _ => n1), (fun i j => if Nat.eqb i j then n1 else n0).
    split; [repeat split; reflexivity|]. intros i _ H. destruct (bad_in_nil bad i H).
  Qed.
  Lemma dcc_inv_step p s x s' pre : length x = p -> dcc_inv p s pre -> dcc_update s x = Ok s' -> dcc_inv p s' (pre ++ [x]).
  Proof.
    intros Hx (m & h & Q & (Hn & Hm & Hh & HQ) & Hb) H. rewrite (vec_tab x p Hx) in H. unfold dcc_update in H. rewrite Hn, Hm, Hh, HQ in H. cbn [bind] in H.
    destruct (getI "n_dim" s); cbn [bind] in H; [|discriminate]. destruct (getN "r" s); cbn [bind] in H; [|discriminate]. destruct (getN "vol_r" s); cbn [bind] in H; [|discriminate]. destruct (getI "n_burn" s); cbn [bind] in H; [|discriminate].
    rewrite vsub_tab in H. cbn [bind] in H. rewrite vmul_tab in H. cbn [bind] in H.
    assert (K : S (length pre) = length (pre ++ [x])) by (rewrite app_length; cbn [length]; lia).
    destruct (Nat.leb _ _); repeat (rewrite ?vsub_tab, ?vscale_tab, ?vdivs_tab, ?vadd_tab, ?map_tab, ?vdiv_tab, ?outer_tab, ?msub_tab, ?mdivs_tab, ?mscale_tab, ?madd_tab in H; cbn [bind] in H); injection H as <-;
      (eexists _, _, _; split; [split; [cbn; now rewrite K|split; [reflexivity|split; reflexivity]]|]; intros i Hi Hi2; apply bad_in_snoc in Hi2;
       assert (D : bad (nsub (vget x i) (m i))) by (destruct Hi2 as [Hi2|Hi2]; [destruct (Hb i Hi Hi2); auto|auto]);
       split; [destruct Hi2 as [Hi2|Hi2]; [destruct (Hb i Hi Hi2); auto|auto]|intros j Hj; split; auto 10]).
  Qed.
End Readers.
Lemma Diagonal_inv {N : Num} (bad : N -> Prop) (HB : contaminates bad) p s x s' pre : 
  length x = p -> (exists m v, getI "n_samples" s = Ok (length pre) /\ getV "mean" s = Ok (tab p m) /\ getV "var" s = Ok (tab p v) /\ forall i, i < p -> bad_in bad pre i -> bad (m i) /\ bad (v i)) ->
  diag_update s x = Ok s' -> exists m v, getI "n_samples" s' = Ok (length (pre ++ [x])) /\ getV "mean" s' = Ok (tab p m) /\ getV "var" s' = Ok (tab p v) /\ forall i, i < p -> bad_in bad (pre ++ [x]) i -> bad (m i) /\ bad (v i).
Proof.
  intros Hx (m & v & Hn & Hm & Hv & Hb) H. rewrite (vec_tab x p Hx) in H. unfold diag_update in H. rewrite Hn, Hm, Hv in H. cbn [bind] in H.
  destruct (getI "n_burn" s); cbn [bind] in H; [|discriminate]. destruct (getN "r" s); cbn [bind] in H; [|discriminate]. destruct (getI "n_dim" s); cbn [bind] in H; [|discriminate].
  rewrite vsub_tab in H. cbn [bind] in H. rewrite vmul_tab in H. cbn [bind] in H.
  assert (K : S (length pre) = length (pre ++ [x])) by (rewrite app_length; cbn [length]; lia).
  pose proof (ct_add_l bad HB) as al. pose proof (ct_add_r bad HB) as ar. pose proof (ct_sub_l bad HB) as sl. pose proof (ct_sub_r bad HB) as sr. pose proof (ct_mul_l bad HB) as ml. pose proof (ct_mul_r bad HB) as mr. pose proof (ct_div_l bad HB) as dl.
  destruct (Nat.leb _ _); repeat (rewrite ?vsub_tab, ?vscale_tab, ?vdivs_tab, ?vadd_tab in H; cbn [bind] in H); injection H as <-;
    (eexists _, _; split; [cbn; now rewrite K|split; [reflexivity|split; [reflexivity|]]]; intros i Hi Hi2; apply bad_in_snoc in Hi2; destruct Hi2 as [Hi2|Hi2]; [destruct (Hb i Hi Hi2)|]; split; auto 10).
Qed.

Lemma dcc_spoiled {N : Num} (bad : N -> Prop) (HB : contaminates bad) : covariance_spoiled bad (DCC (N := N)).
Proof.
    intros P p rows o Hr E i Hi Hb c. cbn [c_P DCC dict_class] in P.
    destruct (follow_stream (C := DCC) P p (dcc_inv bad p) (dcc_inv_init bad P p) (dcc_inv_step bad HB p) rows o Hr E) as (s & Es & Ep & m & h & Q & (Hn & Hm & Hh & HQ) & Hbm).
    { intros H. rewrite H in Hb. exact (bad_in_nil bad i Hb). }
    unfold covariance_. destruct (fitted_state o) as [s1|] eqn:Ef; cbn [bind]; [|discriminate].
    assert (s1 = s) as ->. { unfold fitted_state in Ef. rewrite Es in Ef. destruct (get_or _ _); cbn [bind] in Ef; [|discriminate]. destruct (Nat.ltb _ _); [discriminate|]. now injection Ef. }
    cbn [c_cov DCC dict_class]. unfold dcc_cov. rewrite HQ, Hh. cbn [bind]. rewrite diag_tab, !map_tab, !outer_tab, mmul_tab by lia. cbn [bind]. rewrite mmul_tab. cbn [bind]. rewrite symmetric_tab by lia.
    intros [= <-]. split; [apply is_mat_tab2|]. intros j Hj. rewrite !mget_tab by auto. destruct (Hbm i Hi Hb) as [_ K]. destruct (K j Hj).
    split; apply (ct_div_l bad HB), (ct_add_l bad HB), (ct_mul_l bad HB), (ct_mul_l bad HB); assumption.
Qed.
(** covariance_ of the estimators whose covariance is a recursion of its own: the row and the column of a spoiled variable are spoiled for good.  (OAS, Ledoit-Wolf and
    constant target shrinkage read the same recursion.) *)
Theorem C106_covariance : forall (N : Num) (L : LinAlg N) (bad : N -> Prop), contaminates bad ->
  covariance_spoiled bad (Empirical (N := N)) /\ covariance_spoiled bad (Ewa (N := N)) /\ covariance_spoiled bad (LedoitWolf (N := N)) /\
  covariance_spoiled bad (OAS (N := N)) /\ covariance_spoiled bad (Shrunk (N := N)) /\ covariance_spoiled bad (Adaptive L) /\ covariance_spoiled bad (Huber L) /\
  covariance_spoiled bad (DCC (N := N)).
Proof.
  intros N L bad HB. refine (conj _ (conj _ (conj _ (conj _ (conj _ (conj _ (conj _ (dcc_spoiled bad HB)))))))); apply (cov_spoiled_by bad HB).
  all: try (intros P p s; first [exact (ewa_cov_inv bad p _ s)|exact (ewa_cov_inv_app bad p _ _ s)]).
  all: try (intros P; first [apply (emp_cov bad HB)|apply (ewa_cov bad HB)|apply (lw_cov_step bad HB)|apply (ada_cov_step L bad HB)|apply (hub_cov_step L bad HB)]).
  all: try (intros P p n s m c r Hp Hh; first [exact (plain_cov bad p n s m c r Hh)|exact (lw_read bad HB p n s m c r Hp Hh)|exact (oas_read bad HB p n s m c r Hp Hh)|exact (shr_read bad HB P p n s m c r Hp Hh)]).
  - intros P p s [= <-]. apply zeros_cov_inv. repeat split; reflexivity.
Qed.
(** DiagonalCovariance: the spoiled variance; what is off the diagonal is not computed and stays what it was. *)
Theorem C106_diagonal : forall (N : Num) (bad : N -> Prop), contaminates bad ->
  forall (P : EwaP (N := N)) p rows o, rows_of_length p rows -> partial_fit (new (C := Diagonal (N := N)) P) (In2 rows) = (o, Ok tt) -> forall i, i < p ->
    bad_in bad (absorbed (ewa_diff P) rows) i ->
    exists c, covariance_ o = Ok c /\ is_mat p p c /\ bad (mget c i i) /\ forall a b, a < p -> b < p -> a <> b -> mget c a b = ndiv (nadd n0 n0) (nofZ 2).
Proof.
  intros N bad HB P p rows o Hr E i Hi Hb.
  destruct (follow_stream (C := Diagonal (N := N)) P p (fun s pre => exists m v, getI "n_samples" s = Ok (length pre) /\ getV "mean" s = Ok (tab p m) /\ getV "var" s = Ok (tab p v) /\ forall i, i < p -> bad_in bad pre i -> bad (m i) /\ bad (v i)))
    with (rows := rows) (o := o) as (s & Es & Ep & m & v & Hn & Hm & Hv & Hbm); [..|exact Hr|exact E| |].
  { intros s. cbn [c_init Diagonal dict_class]. unfold diag_init. destruct (ewa_burn_n _); cbn [bind]; [|discriminate]. intros [= <-]. exists (fun _ => n0), (fun _ => n0).
    repeat (split; [reflexivity|]). intros k _ H. destruct (bad_in_nil bad k H). }
  { intros s x s' pre. exact (Diagonal_inv bad HB p s x s' pre). }
  { intros H. cbn [c_diff Diagonal dict_class] in H. rewrite H in Hb. exact (bad_in_nil bad i Hb). }
  unfold covariance_, fitted_state. rewrite Es. cbn [c_nsamples c_cov Diagonal dict_class]. unfold dict_nsamples. rewrite Hn. cbn [get_or bind].
  cbn [c_diff Diagonal dict_class] in *. destruct (absorbed (ewa_diff P) rows) as [|x0 l] eqn:EA; [destruct (bad_in_nil bad i Hb)|]. cbn [length Nat.ltb Nat.leb bind].
  unfold diag_cov. rewrite Hv. cbn [bind]. rewrite mdiag_tab, symmetric_tab by lia. eexists. split; [reflexivity|]. split; [apply is_mat_tab2|].
  split; [rewrite mget_tab, Nat.eqb_refl by exact Hi; apply (ct_div_l bad HB), (ct_add_l bad HB); now apply Hbm|].
  intros a b Ha Hb2 Hne. rewrite mget_tab by auto. destruct (Nat.eqb_spec a b); [congruence|]. destruct (Nat.eqb_spec b a); [congruence|]. reflexivity.
Qed.

(** * C106, concluded: where one NaN takes the whole estimate with it *)
From Coq Require Import Reals ZArith Bool String List Arith Lia.
From Flocq Require Import Core BinarySingleNaN.
From Verif Require Import Num NumFloat NumBin Numpy PyVal LinalgModel StateModel BaseModel Estimators RegistryModel Spec.
From Verif Require Import ListLemmas BaseProofs RegistryProofs Shapes ClassShapes Props_Missing Props_MissingCov RealSpec EwaReal EmpFacts.
Import ListNotations.
Local Open Scope string_scope.
Local Open Scope list_scope.

Section Sums.
  Context {N : Num} (bad : N -> Prop) (HB : contaminates bad).
  Lemma fold_bad l : forall a : N, bad a -> bad (fold_left nadd l a).
  Proof. induction l as [|y l IH]; intros a H; [exact H|]. cbn [fold_left]. apply IH. now apply (ct_add_l bad HB). Qed.
  Lemma fold_bad_in l y : In y l -> bad y -> forall a : N, bad (fold_left nadd l a).
  Proof.
    induction l as [|z l IH]; intros Hin Hy a; [destruct Hin|]. cbn [fold_left]. destruct Hin as [->|Hin]; [apply fold_bad; now apply (ct_add_r bad HB)|now apply IH].
  Qed.
  Lemma vsum_bad l y : In y l -> bad y -> bad (vsum l).
  Proof. intros H Hy. now apply fold_bad_in with y. Qed.
  Lemma in_tab {A} p (f : nat -> A) i : i < p -> In (f i) (tab p f).
  Proof. intros H. unfold tab. apply in_map. apply in_seq. lia. Qed.
  Lemma vsum_tab_bad p f i : i < p -> bad (f i) -> bad (vsum (tab p f)).
  Proof. intros Hi H. apply vsum_bad with (f i); [now apply in_tab|exact H]. Qed.
  Lemma trace_bad p f i : i < p -> bad (f i i) -> bad (mtrace (tab2 p p f)).
  Proof. intros Hi H. unfold mtrace. rewrite diag_tab by lia. now apply vsum_tab_bad with (f := fun i => f i i) (i := i). Qed.
  Lemma msum_bad p q f i j : i < p -> j < q -> bad (f i j) -> bad (msum (tab2 p q f)).
  Proof. intros Hi Hj H. unfold msum, tab2. rewrite map_tab. apply (vsum_tab_bad p _ i Hi). now apply (vsum_tab_bad q _ j Hj). Qed.
  (** [v @ a], then [@ v]: one bad entry of [v] is enough *)
  Lemma quad_bad p (v : nat -> N) a dp q i : vecmat (tab p v) a = Ok dp -> vdot dp (tab p v) = Ok q -> i < p -> bad (v i) -> bad q.
  Proof.
    unfold vecmat, vdot. rewrite !tab_length. destruct (Nat.eqb_spec p (nrows a)) as [E1|]; [|discriminate]. intros [= <-]. rewrite tab_length.
    destruct (Nat.eqb_spec (ncols a) p) as [E2|]; [|discriminate]. rewrite E2. intros [= <-] Hi H. rewrite zipw_tab. apply (vsum_tab_bad p _ i Hi). now apply (ct_mul_r bad HB).
  Qed.
End Sums.

Section Lost.
  Context {N : Num} (L : LinAlg N) (bad : N -> Prop) (HN : nan_like bad).
  Let HB := nl_cont bad HN.
  Let al := ct_add_l bad HB. Let ar := ct_add_r bad HB. Let sl := ct_sub_l bad HB. Let sr := ct_sub_r bad HB.
  Let ml := ct_mul_l bad HB. Let mr := ct_mul_r bad HB. Let dl := ct_div_l bad HB. Let dr := nl_div_r bad HN. Let sq := nl_sqrt bad HN.
  Lemma pymax_bad a b : bad a -> py_max a b = a.
  Proof. intros H. unfold py_max. now rewrite (nl_ltb bad HN a b (or_introl H)). Qed.
  Lemma pymin_bad a b : bad a -> py_min a b = a.
  Proof. intros H. unfold py_min. now rewrite (nl_ltb bad HN b a (or_intror H)). Qed.
  Lemma npmax_bad a b : bad a -> np_max a b = a.
  Proof. intros H. unfold np_max. now rewrite (nl_isnan bad HN a H). Qed.
  Lemma npclip_bad a lo hi : bad a -> np_clip a lo hi = a.
  Proof. intros H. unfold np_clip. rewrite npmax_bad by exact H. unfold np_min. now rewrite (nl_isnan bad HN a H). Qed.
  Lemma leb_bad a b : bad a -> nleb a b = false.
  Proof. intros H. exact (nl_leb bad HN a b (or_introl H)). Qed.

  (** readers that mix all columns *)
  Definition all_bad (p : nat) (c : nat -> nat -> N) : Prop := forall a b, a < p -> b < p -> bad (c a b).
  Lemma lost_by name (PT : Type) diff init upd cov (late : PT -> list (vec N) -> Prop) (inv : PT -> nat -> dict N -> list (vec N) -> Prop) :
    (forall P p s, init P p = Ok s -> inv P p s []) ->
    (forall P p s x s' pre, length x = p -> inv P p s pre -> upd P s x = Ok s' -> inv P p s' (pre ++ [x])) ->
    (forall P p s pre i r, i < p -> bad_in bad pre i -> late P pre -> inv P p s pre -> cov P s = Ok r -> exists c', r = tab2 p p c' /\ all_bad p c') ->
    covariance_lost bad (dict_class (N := N) name PT diff init upd cov) late.
  Proof.
    intros HI HS HC P p rows o Hr E i Hi Hb Hl r. cbn [c_P dict_class] in P.
    destruct (follow_stream (C := dict_class name PT diff init upd cov) P p (inv P p) (HI P p) (HS P p) rows o Hr E) as (s & Es & Ep & Hinv).
    { intros H. rewrite H in Hb. exact (bad_in_nil bad i Hb). }
    unfold covariance_. destruct (fitted_state o) as [s1|] eqn:Ef; cbn [bind]; [|discriminate].
    assert (s1 = s) as ->. { unfold fitted_state in Ef. rewrite Es in Ef. destruct (get_or _ _); cbn [bind] in Ef; [|discriminate]. destruct (Nat.ltb _ _); [discriminate|]. now injection Ef. }
    rewrite Ep. cbn [c_cov dict_class]. destruct (cov P s) as [r0|] eqn:Ec; cbn [bind]; [|discriminate].
    destruct (HC P p s _ i r0 Hi Hb Hl Hinv Ec) as (c' & -> & Hc'). rewrite symmetric_tab by lia. intros [= <-].
    split; [apply is_mat_tab2|]. intros a b Ha Hb'. rewrite mget_tab by auto. apply dl, al. now apply Hc'.
  Qed.

  Lemma oas_lost : covariance_lost bad (OAS (N := N)) (fun _ _ => True).
  Proof.
    apply (lost_by "OASCovariance" _ _ _ _ _ _ (fun P p s pre => cov_inv bad p s pre)).
    - intros P p s. exact (ewa_cov_inv bad p _ s).
    - intros P p s x s' pre Hx Hs Hu. exact (cov_inv_step bad p _ s x s' pre (Props_MissingCov.ewa_cov bad HB) Hx Hs Hu).
    - intros P p s pre i r Hi Hb _ (m & c & (_ & Hd & _ & Hc) & Hx). destruct (Hx i Hi Hb) as [_ Hk]. destruct (Hk i Hi) as [Hii _].
      unfold oas_cov. rewrite Hc, Hd. cbn [bind]. destruct (getN "r" s) as [rr|]; cbn [bind]; [|discriminate].
      destruct (py_div _ rr) as [ri|]; cbn [bind]; [|discriminate]. destruct (matmul _ _) as [SS|]; cbn [bind]; [|discriminate]. destruct (py_div _ _) as [tp|]; cbn [bind]; [|discriminate].
      pose proof (trace_bad bad HB p c i Hi Hii) as Ht. rewrite leb_bad by auto. rewrite pymax_bad by auto. rewrite pymin_bad by auto.
      rewrite meye_tab, !mscale_tab, madd_tab. intros [= <-]. eexists. split; [reflexivity|]. intros a b Ha Hb'. cbv beta. apply al, ml. auto 8.
  Qed.
  Lemma shr_lost : covariance_lost bad (Shrunk (N := N)) (fun P _ => shr_target P = "identity").
  Proof.
    apply (lost_by "ShrunkCovariance" _ _ _ _ _ _ (fun P p s pre => cov_inv bad p s pre)).
    - intros P p s. exact (ewa_cov_inv bad p _ s).
    - intros P p s x s' pre Hx Hs Hu. exact (cov_inv_step bad p _ s x s' pre (Props_MissingCov.ewa_cov bad HB) Hx Hs Hu).
    - intros P p s pre i r Hi Hb Ht (m & c & (_ & Hd & _ & Hc) & Hx). destruct (Hx i Hi Hb) as [_ Hk]. destruct (Hk i Hi) as [Hii _].
      unfold shr_cov. rewrite Hc, Hd, Ht. cbn [bind String.eqb Ascii.eqb Bool.eqb]. pose proof (trace_bad bad HB p c i Hi Hii) as Htr.
      rewrite meye_tab, !mscale_tab, madd_tab. intros [= <-]. eexists. split; [reflexivity|]. intros a b Ha Hb'. cbv beta. auto.
  Qed.

  (** LedoitWolf: unpooled within the burn-in; afterwards all of it *)
  Definition lw_inv (P : EwaP (N := N)) (p : nat) (s : dict N) (pre : list (vec N)) : Prop :=
    cov_inv bad p s pre /\ exists b pi, ewa_burn_n (ewa_r P) = Ok b /\ getI "n_burn" s = Ok b /\ getN "pi_bar" s = Ok pi /\ getN_default "pi_bar" n0 s = Ok pi /\
      forall i, i < p -> bad_in bad pre i -> b < length pre -> bad pi.
  Lemma lw_inv_step P p s x s' pre : length x = p -> lw_inv P p s pre -> lw_update s x = Ok s' -> lw_inv P p s' (pre ++ [x]).
  Proof.
    intros Hx (Hc & b & pi & E1 & E2 & E3 & E4 & Hpi) Hu. split; [exact (cov_inv_step bad p _ s x s' pre (lw_cov_step bad HB) Hx Hc Hu)|].
    destruct Hc as (m & c & (Hn & Hd & Hm & Hc) & Hb). exists b. rewrite (vec_tab x p Hx) in Hu. unfold lw_update in Hu. rewrite Hn, E2 in Hu. cbn [bind] in Hu.
    destruct (getN "r" s) as [r|]; cbn [bind] in Hu; [|discriminate]. rewrite E3 in Hu. cbn [bind] in Hu.
    destruct (Nat.ltb_spec (length pre) b) as [Hlt|Hge].
    - destruct (emp_update s _) as [out|] eqn:Eo; cbn [bind] in Hu; [|discriminate]. injection Hu as <-. exists pi. unfold emp_update in Eo. rewrite Hn, Hm, Hc, Hd in Eo. cbn [bind] in Eo.
      rewrite vsub_tab in Eo. cbn [bind] in Eo. rewrite vdivs_tab, vadd_tab in Eo. cbn [bind] in Eo. rewrite vsub_tab in Eo. cbn [bind] in Eo. rewrite vdivs_tab, mmap_tab, outer_tab, madd_tab in Eo. cbn [bind] in Eo. injection Eo as <-.
      refine (conj E1 (conj eq_refl (conj eq_refl (conj eq_refl _)))). intros i _ _ H. rewrite app_length in H. cbn [length] in H. lia.
    - rewrite Hd, Hm, Hc in Hu. cbn [bind] in Hu. rewrite vsub_tab in Hu. cbn [bind] in Hu. rewrite outer_tab, msub_tab in Hu. cbn [bind] in Hu. rewrite !vscale_tab, vadd_tab in Hu. cbn [bind] in Hu. rewrite !mscale_tab, madd_tab in Hu. cbn [bind] in Hu.
      injection Hu as <-. eexists. refine (conj E1 (conj eq_refl (conj eq_refl (conj eq_refl _)))). intros i Hi Hbi _. apply ar, mr, dl. rewrite mmap_tab.
      apply (msum_bad bad HB p p _ i i Hi Hi). unfold nsq. apply ml. apply bad_in_snoc in Hbi. destruct Hbi as [Hbi|Hbi]; [destruct (Hb i Hi Hbi) as [_ K]; destruct (K i Hi); auto|auto].
  Qed.
  (** more rows have been absorbed than the burn-in of the learning rate *)
  Definition after_burn_in (r : N) (xs : list (vec N)) : Prop := exists b, ewa_burn_n r = Ok b /\ b < length xs.
  Lemma lw_lost : covariance_lost bad (LedoitWolf (N := N)) (fun P xs => after_burn_in (ewa_r P) xs).
  Proof.
    apply (lost_by "LedoitWolfCovariance" _ _ _ _ _ _ lw_inv).
    - intros P p s. unfold lw_init, ewa_init. destruct (ewa_burn_n (ewa_r P)) as [b|] eqn:E; cbn [bind]; [|discriminate]. intros [= <-]. split.
      + apply zeros_cov_inv. repeat split; reflexivity.
      + exists b, n0. repeat (split; [first [exact E|reflexivity]|]). intros i _ _ H. cbn in H. lia.
    - exact lw_inv_step.
    - intros P p s pre i r Hi Hb (b & Eb & Hl) ((m & c & (_ & Hd & _ & Hc) & Hx) & b' & pi & E1 & _ & _ & E4 & Hpi).
      assert (b' = b) as -> by congruence. pose proof (Hpi i Hi Hb Hl) as Hp. destruct (Hx i Hi Hb) as [_ Hk]. destruct (Hk i Hi) as [Hii _].
      unfold lw_cov. rewrite Hc, Hd. cbn [bind]. rewrite meye_tab, mscale_tab, msub_tab. cbn [bind]. rewrite E4. cbn [bind].
      pose proof (trace_bad bad HB p c i Hi Hii) as Htr.
      rewrite (leb_bad pi) by exact Hp. rewrite leb_bad; [|apply dl; rewrite mmap_tab; apply (msum_bad bad HB p p _ i i Hi Hi); unfold nsq; auto]. cbn [orb].
      destruct (getN "r" s) as [rr|]; cbn [bind]; [|discriminate]. rewrite pymin_bad by auto. rewrite npclip_bad by auto. rewrite !mscale_tab, madd_tab. intros [= <-].
      eexists. split; [reflexivity|]. intros a b0 Ha Hb'. cbv beta. apply al, ml, sr. auto.
  Qed.
  (** HuberCovariance and AdaptiveEwaCovariance weigh a row by its Mahalanobis distance: after the burn-in, everything *)
  Definition all_inv (r : N) (p : nat) (s : dict N) (pre : list (vec N)) : Prop :=
    exists m c b, has p (length pre) m c s /\ ewa_burn_n r = Ok b /\ getI "n_burn" s = Ok b /\
      (forall i, i < p -> bad_in bad pre i -> cross_bad bad p i m c) /\
      (forall i, i < p -> bad_in bad pre i -> b < length pre -> (forall a, a < p -> bad (m a)) /\ all_bad p c).
  Lemma all_inv_burn r p s x out pre extra b : length x = p -> all_inv r p s pre -> getI "n_burn" s = Ok b -> length pre < b -> emp_update s x = Ok out ->
    getI "n_burn" (out ++ extra) = Ok b -> all_inv r p (out ++ extra) (pre ++ [x]).
  Proof.
    intros Hx (m & c & b' & Hh & E1 & E2 & Hb & _) E2' Hlt Eo En. assert (b' = b) as -> by congruence.
    rewrite (vec_tab x p Hx) in Eo. destruct (emp_cov_app bad HB p s (vget x) out m c (length pre) extra Hh Eo) as (m' & c' & A & B).
    exists m', c', b. assert (K : length (pre ++ [x]) = S (length pre)) by (rewrite app_length; cbn [length]; lia). rewrite K.
    refine (conj A (conj E1 (conj En (conj _ _)))); [|intros i _ _ H; lia].
    intros i Hi H. apply B; [exact Hi|]. apply bad_in_snoc in H. destruct H; [right; now apply Hb|now left].
  Qed.
  Lemma hub_all_step P p s x s' pre : length x = p -> all_inv (hub_r P) p s pre -> hub_update L P s x = Ok s' -> all_inv (hub_r P) p s' (pre ++ [x]).
  Proof.
    intros Hx HI Hu. pose proof HI as (m & c & b & (Hn & Hd & Hm & Hc) & E1 & E2 & Hb & _). unfold hub_update in Hu. rewrite Hn, E2 in Hu. cbn [bind] in Hu.
    destruct (getN "r" s) as [r|]; cbn [bind] in Hu; [|discriminate]. destruct (Nat.ltb_spec (length pre) b) as [Hlt|Hge].
    - destruct (emp_update s x) as [out|] eqn:Eo; cbn [bind] in Hu; [|discriminate]. injection Hu as <-. apply (all_inv_burn (hub_r P) p s x out pre _ b Hx HI E2 Hlt Eo).
      unfold emp_update in Eo. rewrite Hn, Hm, Hc, Hd in Eo. cbn [bind] in Eo. repeat (match type of Eo with bind ?e _ = _ => destruct e; cbn [bind] in Eo; [|discriminate] end). now injection Eo as <-.
    - rewrite Hd, Hm, Hc in Hu. cbn [bind] in Hu. rewrite (vec_tab x p Hx) in Hu. rewrite vsub_tab in Hu. cbn [bind] in Hu.
      destruct (try_invert L _) as [inv|]; cbn [bind] in Hu; [|discriminate]. destruct (vecmat _ inv) as [dp|] eqn:Ev; cbn [bind] in Hu; [|discriminate]. destruct (vdot dp _) as [q|] eqn:Eq; cbn [bind] in Hu; [|discriminate].
      set (th := nmul (nmul (hub_c P) (hub_c P)) (nofn p)) in *.
      destruct (if nleb q th then Ok n1 else (q0 <- py_div th q ;; Ok (nsqrt q0))) as [w|] eqn:Ew; cbn [bind] in Hu; [|discriminate].
      rewrite !vscale_tab, vadd_tab in Hu. cbn [bind] in Hu. rewrite !mscale_tab, outer_tab, mscale_tab, madd_tab in Hu. cbn [bind] in Hu. injection Hu as <-.
      assert (K : length (pre ++ [x]) = S (length pre)) by (rewrite app_length; cbn [length]; lia).
      eexists _, _, b. refine (conj _ (conj E1 (conj eq_refl (conj _ _)))).
      + rewrite K. repeat split; reflexivity.
      + intros i Hi H. apply bad_in_snoc in H. assert (D : bad (nsub (vget x i) (m i))) by (destruct H as [H|H]; [destruct (Hb i Hi H); auto|auto]).
        split; [auto|]. intros j Hj. split; auto 10.
      + intros i Hi H _. apply bad_in_snoc in H. assert (D : bad (nsub (vget x i) (m i))) by (destruct H as [H|H]; [destruct (Hb i Hi H); auto|auto]).
        pose proof (quad_bad bad HB p (fun i => nsub (vget x i) (m i)) inv dp q i Ev Eq Hi D) as Hq. rewrite (leb_bad q) in Ew by exact Hq.
        destruct (py_div th q) as [z|] eqn:Ez; cbn [bind] in Ew; [|discriminate]. injection Ew as <-. unfold py_div in Ez. destruct (_ && _); [discriminate|]. injection Ez as <-.
        split; [intros a Ha; auto 8|]. intros a b0 Ha Hb0. auto 10.
  Qed.
  Lemma ada_all_step P p s x s' pre : length x = p -> all_inv (ada_r P) p s pre -> ada_update L s x = Ok s' -> all_inv (ada_r P) p s' (pre ++ [x]).
  Proof.
    intros Hx HI Hu. pose proof HI as (m & c & b & (Hn & Hd & Hm & Hc) & E1 & E2 & Hb & _). unfold ada_update in Hu. rewrite Hn, E2 in Hu. cbn [bind] in Hu.
    destruct (getN "r" s) as [r|]; cbn [bind] in Hu; [|discriminate]. destruct (getN "max_r" s) as [mx|]; cbn [bind] in Hu; [|discriminate]. destruct (getN "sbar" s) as [sb|]; cbn [bind] in Hu; [|discriminate].
    destruct (Nat.ltb_spec (length pre) b) as [Hlt|Hge].
    - destruct (emp_update s x) as [out|] eqn:Eo; cbn [bind] in Hu; [|discriminate]. injection Hu as <-. apply (all_inv_burn (ada_r P) p s x out pre _ b Hx HI E2 Hlt Eo).
      unfold emp_update in Eo. rewrite Hn, Hm, Hc, Hd in Eo. cbn [bind] in Eo. repeat (match type of Eo with bind ?e _ = _ => destruct e; cbn [bind] in Eo; [|discriminate] end). now injection Eo as <-.
    - rewrite Hd, Hm, Hc in Hu. cbn [bind] in Hu. rewrite (vec_tab x p Hx) in Hu. rewrite vsub_tab in Hu. cbn [bind] in Hu.
      destruct (try_invert L _) as [inv|]; cbn [bind] in Hu; [|discriminate]. destruct (vecmat _ inv) as [dp|] eqn:Ev; cbn [bind] in Hu; [|discriminate]. destruct (vdot dp _) as [q|] eqn:Eq; cbn [bind] in Hu; [|discriminate].
      set (re := py_min _ mx) in *.
      rewrite !vscale_tab, vadd_tab in Hu. cbn [bind] in Hu. rewrite !mscale_tab, outer_tab, mscale_tab, madd_tab in Hu. cbn [bind] in Hu. injection Hu as <-.
      assert (K : length (pre ++ [x]) = S (length pre)) by (rewrite app_length; cbn [length]; lia).
      eexists _, _, b. refine (conj _ (conj E1 (conj eq_refl (conj _ _)))).
      + rewrite K. repeat split; reflexivity.
      + intros i Hi H. apply bad_in_snoc in H. assert (D : bad (nsub (vget x i) (m i))) by (destruct H as [H|H]; [destruct (Hb i Hi H); auto|auto]).
        split; [destruct H as [H|H]; [destruct (Hb i Hi H); auto|auto]|]. intros j Hj. split; auto 10.
      + intros i Hi H _. apply bad_in_snoc in H. assert (D : bad (nsub (vget x i) (m i))) by (destruct H as [H|H]; [destruct (Hb i Hi H); auto|auto]).
        pose proof (quad_bad bad HB p (fun i => nsub (vget x i) (m i)) inv dp q i Ev Eq Hi D) as Hq.
        assert (Hre : bad re). { unfold re. destruct (Nat.ltb_spec 0 p); [|lia]. rewrite pymax_bad by auto 8. rewrite pymin_bad by auto 8. auto 8. }
        split; [intros a Ha; auto 8|]. intros a b0 Ha Hb0. auto 10.
  Qed.
  (** a class whose whole state is lost *)
  Lemma all_lost_by name (PT : Type) diff init upd (r : PT -> N) :
    (forall P p s, init P p = Ok s -> all_inv (r P) p s []) ->
    (forall P p s x s' pre, length x = p -> all_inv (r P) p s pre -> upd P s x = Ok s' -> all_inv (r P) p s' (pre ++ [x])) ->
    covariance_lost bad (dict_class (N := N) name PT diff init upd (fun _ => dict_cov)) (fun P xs => after_burn_in (r P) xs) /\
    location_lost bad (dict_class (N := N) name PT diff init upd (fun _ => dict_cov)) (fun P xs => after_burn_in (r P) xs).
  Proof.
    intros HI HS. split.
    - apply (lost_by name PT diff init upd _ _ (fun P => all_inv (r P)) HI HS).
      intros P p s pre i q Hi Hb (b & Eb & Hl) (m & c & b' & (_ & _ & _ & Hc) & E1 & _ & _ & Ha). assert (b' = b) as -> by congruence.
      unfold dict_cov. rewrite Hc. intros [= <-]. exists c. split; [reflexivity|]. now destruct (Ha i Hi Hb Hl).
    - intros P p rows o Hr E i Hi Hb Hl. cbn [c_P dict_class] in P.
      destruct (follow_stream (C := dict_class name PT diff init upd (fun _ => dict_cov)) P p (all_inv (r P) p) (HI P p) (HS P p) rows o Hr E) as (s & Es & Ep & m & c & b' & (Hn & _ & Hm & _) & E1 & _ & _ & Ha).
      { intros H. rewrite H in Hb. exact (bad_in_nil bad i Hb). }
      destruct Hl as (b & Eb & Hl). assert (b' = b) as -> by congruence.
      exists (tab p m). split; [|split; [apply tab_length|intros a Ha'; unfold vget; rewrite nth_tab by exact Ha'; now apply (Ha i Hi Hb Hl)]].
      unfold location_, fitted_state. rewrite Es. cbn [c_nsamples dict_class]. unfold dict_nsamples. rewrite Hn. cbn [get_or bind].
      destruct (absorbed _ rows) as [|x0 l] eqn:EA; [destruct (bad_in_nil bad i); exact Hb|]. cbn [length Nat.ltb Nat.leb bind]. exact Hm.
  Qed.
  Lemma all_inv_init p r (s : dict N) b : ewa_burn_n r = Ok b -> getI "n_burn" s = Ok b -> has p 0 (fun _ => n0) (fun _ _ => n0) s -> all_inv r p s [].
  Proof.
    intros E1 E2 H. exists (fun _ => n0), (fun _ _ => n0), b. refine (conj H (conj E1 (conj E2 (conj _ _)))); intros i _ Hb; destruct (bad_in_nil bad i Hb).
  Qed.
  Lemma hub_lost : covariance_lost bad (Huber L) (fun P xs => after_burn_in (hub_r P) xs) /\ location_lost bad (Huber L) (fun P xs => after_burn_in (hub_r P) xs).
  Proof.
    apply (all_lost_by "HuberCovariance").
    - intros P p s. unfold ewa_init. destruct (ewa_burn_n (hub_r P)) as [b|] eqn:E; cbn [bind]; [|discriminate]. intros [= <-]. refine (all_inv_init p _ _ b E _ _); [reflexivity|repeat split; reflexivity].
    - intros P p s x s' pre. apply hub_all_step.
  Qed.
  Lemma ada_lost : covariance_lost bad (Adaptive L) (fun P xs => after_burn_in (ada_r P) xs) /\ location_lost bad (Adaptive L) (fun P xs => after_burn_in (ada_r P) xs).
  Proof.
    apply (all_lost_by "AdaptiveEwaCovariance").
    - intros P p s. unfold ada_init, ewa_init. destruct (ewa_burn_n (ada_r P)) as [b|] eqn:E; cbn [bind]; [|discriminate]. intros [= <-]. refine (all_inv_init p _ _ b E _ _); [reflexivity|repeat split; reflexivity].
    - intros P p s x s' pre. apply ada_all_step.
  Qed.

  (** TylerCovariance: from the first NaN on *)
  Definition tyl_inv (p : nat) (s : dict N) (pre : list (vec N)) : Prop :=
    exists m c, getI "n_samples" s = Ok (length pre) /\ getI "n_dim" s = Ok p /\ getV "mean" s = Ok (tab p m) /\ getM "C" s = Ok (tab2 p p c) /\
      forall i, i < p -> bad_in bad pre i -> bad (m i) /\ all_bad p c.
  Lemma tyl_inv_step p s x s' pre : length x = p -> tyl_inv p s pre -> tyl_update L s x = Ok s' -> tyl_inv p s' (pre ++ [x]).
  Proof.
    intros Hx (m & c & Hn & Hd & Hm & Hc & Hb) Hu. unfold tyl_update in Hu. rewrite Hn, Hd in Hu. cbn [bind] in Hu.
    destruct (getI "n_burn" s) as [b|]; cbn [bind] in Hu; [|discriminate]. destruct (getN "r" s) as [r|]; cbn [bind] in Hu; [|discriminate].
    rewrite Hm, Hc in Hu. cbn [bind] in Hu. rewrite (vec_tab x p Hx), vsub_tab in Hu. cbn [bind] in Hu.
    match type of Hu with bind ?e _ = _ => destruct e as [[lr mean]|] eqn:Em end; cbn [bind] in Hu; [|discriminate].
    assert (M : exists m', mean = tab p m' /\ forall i, i < p -> bad (vget x i) \/ bad (m i) -> bad (m' i)).
    { destruct (Nat.leb _ _); rewrite ?vscale_tab, ?vdivs_tab, vadd_tab in Em; cbn [bind] in Em; injection Em as <- <-; eexists; split; [reflexivity| |reflexivity|]; intros i Hi [H|H]; auto. }
    destruct M as (m' & -> & M). clear Em.
    destruct (try_invert L _) as [inv|]; cbn [bind] in Hu; [|discriminate]. destruct (vecmat _ inv) as [dp|] eqn:Ev; cbn [bind] in Hu; [|discriminate]. destruct (vdot dp _) as [q|] eqn:Eq; cbn [bind] in Hu; [|discriminate].
    rewrite outer_tab, !mscale_tab, mdivs_tab, madd_tab in Hu. cbn [bind] in Hu. rewrite mscale_tab, mdivs_tab in Hu. injection Hu as <-.
    assert (K : length (pre ++ [x]) = S (length pre)) by (rewrite app_length; cbn [length]; lia).
    eexists _, _. refine (conj _ (conj eq_refl (conj eq_refl (conj eq_refl _)))); [rewrite K; reflexivity|].
    intros i Hi H. apply bad_in_snoc in H. assert (D : bad (vget x i) \/ bad (m i)) by (destruct H as [H|H]; [right; now apply Hb|now left]).
    split; [now apply M|]. intros a b0 Ha Hb0.
    pose proof (quad_bad bad HB p (fun i => nsub (vget x i) (m i)) inv dp q i Ev Eq Hi ltac:(destruct D; auto)) as Hq. apply dl, mr, ar, dr. now rewrite pymax_bad.
  Qed.
  Lemma tyl_lost : covariance_lost bad (Tyler L) (fun _ _ => True).
  Proof.
    apply (lost_by "TylerCovariance" _ _ _ _ _ _ (fun P p s pre => tyl_inv p s pre)).
    - intros P p s. unfold tyl_init. destruct (ewa_burn_n _); cbn [bind]; [|discriminate]. intros [= <-]. exists (fun _ => n0), (fun i j => if Nat.eqb i j then n1 else n0).
      repeat (split; [reflexivity|]). intros i _ H. destruct (bad_in_nil bad i H).
    - intros P p s x s' pre. apply tyl_inv_step.
    - intros P p s pre i r Hi Hb _ (m & c & _ & _ & _ & Hc & Hx). destruct (Hx i Hi Hb) as [_ Hall].
      unfold tyl_cov. rewrite Hc. cbn [bind]. unfold cov_to_corrcoef. rewrite diag_tab by lia.
      assert (EM : map (fun vi => map (fun vj => nadd (nsqrt (nmul vj vi)) EPS) (tab p (fun k => c k k))) (tab p (fun k => c k k)) = tab2 p p (fun i j => nadd (nsqrt (nmul (c j j) (c i i))) EPS)).
      { rewrite map_tab. unfold tab2. apply tab_ext. intros k Hk. apply map_tab. }
      rewrite EM.
      rewrite mdiv_tab. intros [= <-]. eexists. split; [reflexivity|]. intros a b0 Ha Hb0. cbv beta. apply dl. now apply Hall.
  Qed.
End Lost.

(** One NaN anywhere, in any variable, and every entry of covariance_ is NaN from then on: OAS, identity target shrinkage, Tyler. *)
Theorem C106_pooled_lost : forall (N : Num) (L : LinAlg N) (bad : N -> Prop), nan_like bad ->
  covariance_lost bad (OAS (N := N)) (fun _ _ => True) /\ covariance_lost bad (Shrunk (N := N)) (fun P _ => shr_target P = "identity") /\
  covariance_lost bad (Tyler L) (fun _ _ => True).
Proof. intros N L bad HN. exact (conj (oas_lost bad HN) (conj (shr_lost bad HN) (tyl_lost L bad HN))). Qed.
(** The same of Ledoit-Wolf, once more rows have been absorbed than its burn-in; and of Huber and adaptive weights, where location_ goes too. *)
Theorem C106_lost_after_burn_in : forall (N : Num) (L : LinAlg N) (bad : N -> Prop), nan_like bad ->
  covariance_lost bad (LedoitWolf (N := N)) (fun P xs => after_burn_in (ewa_r P) xs) /\
  covariance_lost bad (Huber L) (fun P xs => after_burn_in (hub_r P) xs) /\ location_lost bad (Huber L) (fun P xs => after_burn_in (hub_r P) xs) /\
  covariance_lost bad (Adaptive L) (fun P xs => after_burn_in (ada_r P) xs) /\ location_lost bad (Adaptive L) (fun P xs => after_burn_in (ada_r P) xs).
Proof. intros N L bad HN. exact (conj (lw_lost bad HN) (conj (proj1 (hub_lost L bad HN)) (conj (proj2 (hub_lost L bad HN)) (ada_lost L bad HN)))). Qed.

(** With diff=True what is absorbed are differences: a spoiled row spoils the one or two differences it takes part in. *)
Theorem C106_difference : forall (N : Num) (bad : N -> Prop), contaminates bad -> forall p (rows : list (vec N)) i, rows_of_length p rows -> 2 <= length rows -> i < p ->
  bad_in bad rows i -> bad_in bad (differences rows) i.
Proof.
  intros N bad HB p rows i Hr. revert Hr. induction rows as [|x rows IH]; intros Hr Hl Hi (y & Hin & Hb); [destruct Hin|].
  destruct rows as [|z rows]; [cbn in Hl; lia|]. pose proof (Forall_inv Hr) as Hx. pose proof (Forall_inv_tail Hr) as Hr'. pose proof (Forall_inv Hr') as Hz. cbv beta in Hx, Hz.
  cbn [differences]. assert (D : vget (zipw nsub z x) i = nsub (vget z i) (vget x i)).
  { rewrite (vec_tab z p Hz), (vec_tab x p Hx), zipw_tab. unfold vget. now rewrite !nth_tab by exact Hi. }
  destruct Hin as [->|Hin]; [exists (zipw nsub z y); split; [now left|rewrite D; now apply (ct_sub_r bad HB)]|].
  destruct Hin as [->|Hin]; [exists (zipw nsub y x); split; [now left|rewrite D; now apply (ct_sub_l bad HB)]|].
  destruct rows as [|w rows]; [destruct Hin|]. destruct (IH Hr' ltac:(cbn [length]; lia) Hi) as (d & A & B); [exists y; split; [now right|exact Hb]|].
  exists d. split; [now right|exact B].
Qed.

(** ** Nothing is raised *)
Section Accept.
  Context {N : Num} {C : EstClass N} (P : c_P C) (p : nat) (J : c_St C -> Prop).
  Context (H0 : forall s, c_init C P p = Ok s -> J s) (H1 : exists s, c_init C P p = Ok s).
  Context (HS : forall s x, J s -> length x = p -> exists s', c_update C P s x = Ok s' /\ J s').
  Definition in_J (o : inst C) : Prop := i_params o = P /\ (forall s, i_state o = Some s -> J s) /\ forall x, i_prev o = Some x -> length x = p.
  Lemma absorb_accepts o x : in_J o -> length x = p -> exists o', absorb o x = (o', Ok tt) /\ in_J o'.
  Proof.
    intros (HP & Hs & Hv) Hx. unfold absorb. destruct o as [P0 st nf pv]. cbn in *. subst P0. destruct st as [s|].
    - destruct (HS s x (Hs s eq_refl) Hx) as (s' & E & HJ). rewrite E. eexists. split; [reflexivity|]. split; [reflexivity|]. split; [intros ? [= <-]; exact HJ|exact Hv].
    - rewrite Hx. destruct H1 as (s0 & E0). rewrite E0. destruct (HS s0 x (H0 s0 E0) Hx) as (s' & E & HJ). rewrite E. eexists. split; [reflexivity|]. split; [reflexivity|]. split; [intros ? [= <-]; exact HJ|exact Hv].
  Qed.
  Lemma row_accepts o x : in_J o -> length x = p -> exists o', fit_row o x = (o', Ok tt) /\ in_J o'.
  Proof.
    intros HJ Hx. unfold fit_row. destruct (c_diff C (i_params o)); [|now apply absorb_accepts]. destruct HJ as (HP & Hs & Hv). destruct (i_prev o) as [x0|] eqn:E0.
    - unfold vsub. rewrite bc_eqlen by (rewrite (Hv x0 eq_refl); exact Hx). apply absorb_accepts; [|rewrite zipw_length; [exact Hx|rewrite (Hv x0 eq_refl); exact Hx]].
      split; [exact HP|]. split; [exact Hs|]. cbn [i_prev]. intros ? [= <-]. exact Hx.
    - eexists. split; [reflexivity|]. split; [exact HP|]. split; [exact Hs|]. cbn [i_prev]. intros ? [= <-]. exact Hx.
  Qed.
  Lemma rows_accepts rows : forall o, in_J o -> rows_of_length p rows -> exists o', fit_rows o rows = (o', Ok tt) /\ in_J o'.
  Proof.
    induction rows as [|x rows IH]; intros o HJ Hr; [eexists; split; [reflexivity|exact HJ]|]. pose proof (Forall_inv Hr) as Hx. pose proof (Forall_inv_tail Hr) as Hr'. cbv beta in Hx.
    destruct (row_accepts o x HJ Hx) as (o1 & E1 & J1). cbn [fit_rows]. rewrite E1. now apply IH.
  Qed.
  Lemma stream_accepts rows : rows_of_length p rows -> exists o, partial_fit (new P) (In2 rows) = (o, Ok tt) /\ in_J o.
  Proof. intros Hr. unfold partial_fit. cbn [as_rows]. apply rows_accepts; [|exact Hr]. split; [reflexivity|]. split; discriminate. Qed.
End Accept.
(** A stream of rows of equal length is accepted whatever numbers it holds, as soon as the constructor's rate is one the class can start with. *)
Definition accepts_anything {N : Num} (C : EstClass N) : Prop :=
  forall (P : c_P C) p s, c_init C P p = Ok s -> forall rows, rows_of_length p rows -> exists o, partial_fit (new P) (In2 rows) = (o, Ok tt).
Section Accepted.
  Context {N : Num}.
  Ltac tabs3 := repeat (rewrite ?vsub_tab, ?vscale_tab, ?vdivs_tab, ?vadd_tab, ?vmul_tab, ?map_tab, ?vdiv_tab, ?outer_tab, ?msub_tab, ?mdivs_tab, ?mscale_tab, ?mmap_tab, ?madd_tab; cbn [bind]).
  Definition ewa_J p (s : dict N) := exists n m c b r, has p n m c s /\ getI "n_burn" s = Ok b /\ getN "r" s = Ok r.
  Definition diag_J p (s : dict N) := exists n m v k r b, getI "n_samples" s = Ok n /\ getV "mean" s = Ok (tab p m) /\ getV "var" s = Ok (tab p v) /\ getI "n_dim" s = Ok k /\ getN "r" s = Ok r /\ getI "n_burn" s = Ok b.
  Definition dcc_J p (s : dict N) := exists n m h Q k r rv b, dcc_has p n m h Q s /\ getI "n_dim" s = Ok k /\ getN "r" s = Ok r /\ getN "vol_r" s = Ok rv /\ getI "n_burn" s = Ok b.
  Definition lw_J p (s : dict N) := ewa_J p s /\ exists q, getN "pi_bar" s = Ok q.
  Lemma emp_total p n m c (s : dict N) x : has p n m c s -> length x = p -> exists m' c', emp_update s x = Ok [("n_dim", VInt p); ("n_samples", VInt (S n)); ("mean", VArr (A1 (tab p m'))); ("cov", VArr (A2 (tab2 p p c')))].
  Proof. intros (Hn & Hd & Hm & Hc) Hx. rewrite (vec_tab x p Hx). unfold emp_update. rewrite Hn, Hm, Hc, Hd. cbn [bind]. tabs3. eauto. Qed.
  Lemma ewa_total p (s : dict N) x : ewa_J p s -> length x = p -> exists s', ewa_update s x = Ok s' /\ ewa_J p s'.
  Proof.
    intros (n & m & c & b & r & Hh & Hb & Hr) Hx. pose proof Hh as (Hn & Hd & Hm & Hc). unfold ewa_update. rewrite Hn, Hb, Hr. cbn [bind]. destruct (Nat.ltb _ _).
    - destruct (emp_total p n m c s x Hh Hx) as (m' & c' & E). rewrite E. cbn [bind]. eexists. split; [reflexivity|]. exists (S n), m', c', b, r. repeat split; reflexivity.
    - rewrite (vec_tab x p Hx), Hm, Hc, Hd. cbn [bind]. tabs3. eexists. split; [reflexivity|]. eexists (S n), _, _, b, r. repeat split; reflexivity.
  Qed.
  Lemma ewa_J_init p r s : ewa_init (N := N) p r = Ok s -> ewa_J p s.
  Proof. unfold ewa_init. destruct (ewa_burn_n r) as [b|]; cbn [bind]; [|discriminate]. intros [= <-]. exists 0, (fun _ => n0), (fun _ _ => n0), b, r. repeat split; reflexivity. Qed.
  Lemma ewa_accepts name PT diff (r : PT -> N) cov : accepts_anything (dict_class (N := N) name PT diff (fun P n => ewa_init n (r P)) (fun _ => ewa_update) cov).
  Proof.
    intros P p s E rows Hr. destruct (stream_accepts (C := dict_class name PT diff (fun P n => ewa_init n (r P)) (fun _ => ewa_update) cov) P p (ewa_J p)) with (rows := rows) as (o & Eo & _); eauto.
    - intros s0. apply ewa_J_init.
    - intros s0 x H Hx. now apply ewa_total.
  Qed.
  Lemma lw_total p (s : dict N) x : lw_J p s -> length x = p -> exists s', lw_update s x = Ok s' /\ lw_J p s'.
  Proof.
    intros ((n & m & c & b & r & Hh & Hb & Hr) & q & Hq) Hx. pose proof Hh as (Hn & Hd & Hm & Hc). unfold lw_update. rewrite Hn, Hb, Hr, Hq. cbn [bind]. destruct (Nat.ltb _ _).
    - destruct (emp_total p n m c s x Hh Hx) as (m' & c' & E). rewrite E. cbn [bind]. eexists. split; [reflexivity|]. split; [exists (S n), m', c', b, r; repeat split; reflexivity|eexists; reflexivity].
    - rewrite (vec_tab x p Hx), Hm, Hc, Hd. cbn [bind]. tabs3. eexists. split; [reflexivity|]. split; [eexists (S n), _, _, b, r; repeat split; reflexivity|eexists; reflexivity].
  Qed.
  Lemma dcc_total p (s : dict N) x : dcc_J p s -> length x = p ->
    exists s', dcc_update s x = Ok s' /\ dcc_J p s'.
  Proof.
    intros (n & m & h & Q & k & r & rv & b & (Hn & Hm & Hh & HQ) & Hk & Hr & Hrv & Hb) Hx. rewrite (vec_tab x p Hx). unfold dcc_update. rewrite Hn, Hm, Hh, HQ, Hk, Hr, Hrv, Hb. cbn [bind].
    rewrite vsub_tab. cbn [bind]. rewrite vmul_tab. cbn [bind]. destruct (Nat.leb _ _); tabs3; (eexists; split; [reflexivity|]; eexists (S n), _, _, _, k, r, rv, b; repeat split; reflexivity).
  Qed.
  Lemma diag_total p (s : dict N) x : diag_J p s -> length x = p ->
    exists s', diag_update s x = Ok s' /\ diag_J p s'.
  Proof.
    intros (n & m & v & k & r & b & Hn & Hm & Hv & Hk & Hr & Hb) Hx. rewrite (vec_tab x p Hx). unfold diag_update. rewrite Hn, Hm, Hv, Hk, Hr, Hb. cbn [bind].
    rewrite vsub_tab. cbn [bind]. rewrite vmul_tab. cbn [bind]. destruct (Nat.leb _ _); tabs3; (eexists; split; [reflexivity|]; eexists (S n), _, _, k, r, b; repeat split; reflexivity).
  Qed.
End Accepted.
(** partial_fit raises nothing on account of a NaN or an infinity. *)
Theorem C106_no_error : forall N : Num,
  accepts_anything (Empirical (N := N)) /\ accepts_anything (Ewa (N := N)) /\ accepts_anything (Diagonal (N := N)) /\ accepts_anything (LedoitWolf (N := N)) /\
  accepts_anything (OAS (N := N)) /\ accepts_anything (Shrunk (N := N)) /\ accepts_anything (DCC (N := N)).
Proof.
  intros N. refine (conj _ (conj _ (conj _ (conj _ (conj _ (conj _ _)))))); try apply ewa_accepts; intros P p s E rows Hr.
  - destruct (stream_accepts (C := Empirical (N := N)) P p (fun s => exists n m c, has p n m c s)) with (rows := rows) as (o & Eo & _); eauto.
    + intros s0 [= <-]. exists 0, (fun _ => n0), (fun _ _ => n0). repeat split; reflexivity.
    + intros s0 x (n & m & c & H) Hx. destruct (emp_total p n m c s0 x H Hx) as (m' & c' & E'). eexists. split; [exact E'|]. exists (S n), m', c'. repeat split; reflexivity.
  - destruct (stream_accepts (C := Diagonal (N := N)) P p (diag_J p)) with (rows := rows) as (o & Eo & _); [| |exact (diag_total p)|exact Hr|eauto]; [|eauto].
    intros s0. cbn [c_init Diagonal dict_class]. unfold diag_init. destruct (ewa_burn_n _) as [b|]; cbn [bind]; [|discriminate]. intros [= <-]. eexists 0, (fun _ => n0), (fun _ => n0), p, _, b. repeat split; reflexivity.
  - destruct (stream_accepts (C := LedoitWolf (N := N)) P p (lw_J p)) with (rows := rows) as (o & Eo & _); [| |exact (lw_total p)|exact Hr|eauto]; [|eauto].
    intros s0. cbn [c_init LedoitWolf dict_class]. unfold lw_init, ewa_init. destruct (ewa_burn_n _) as [b|]; cbn [bind]; [|discriminate]. intros [= <-]. split; [eexists 0, (fun _ => n0), (fun _ _ => n0), b, _; repeat split; reflexivity|eexists; reflexivity].
  - destruct (stream_accepts (C := DCC (N := N)) P p (dcc_J p)) with (rows := rows) as (o & Eo & _); [| |exact (dcc_total p)|exact Hr|eauto]; [|eauto].
    intros s0. cbn [c_init DCC dict_class]. unfold dcc_init. destruct (ewa_burn_n _) as [b|]; cbn [bind]; [|discriminate]. intros [= <-]. eexists 0, (fun _ => n0), (fun _ => n1), (fun i j => if Nat.eqb i j then n1 else n0), p, _, _, b. repeat split; reflexivity.
Qed.

(** ** The hypotheses are met: one NaN, in the second of two variables, then 250 complete rows *)
Example C106_met : forall r : R, r <> 0%R ->
  let rows : list (list (num NumX)) := [Fin 1%R; NaN] :: repeat [Fin 1%R; Fin 2%R] 250 in
  let P := mkEwaP (N := NumX) (Fin r) false in
  rows_of_length 2 rows /\ bad_in x_nan rows 1 /\ ~ bad_in x_nan rows 0 /\ after_burn_in (Fin r : NumX) rows /\
  exists o, partial_fit (new (C := LedoitWolf (N := NumX)) P) (In2 rows) = (o, Ok tt).
Proof.
  intros r Hr rows P. assert (HL : rows_of_length 2 rows) by (constructor; [reflexivity|apply Forall_forall; intros x Hx; apply repeat_spec in Hx; now subst x]).
  split; [exact HL|]. split; [exists [Fin 1%R; NaN]; split; [now left|reflexivity]|].
  split. { intros (x & [<-|Hx] & Hb); [discriminate|]. apply repeat_spec in Hx. subst x. discriminate. }
  split. { exists (burn_len r). split; [now apply burn_fin|]. pose proof (burn_len_bounds r). cbn [rows length]. rewrite repeat_length. lia. }
  destruct (C106_no_error NumX) as (_ & _ & _ & H & _). eapply (H P 2); [|exact HL].
  cbn [c_init LedoitWolf dict_class]. unfold lw_init, ewa_init. cbn [ewa_r P]. now rewrite burn_fin.
Qed.

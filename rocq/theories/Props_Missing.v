(** * C106: missing values (NaN) and infinities in the data, law-free

    [bad] is a class of values that no arithmetic operation gets rid of: the NaN, or all values that are
    not finite.  Both are such classes in exact arithmetic with infinities and in IEEE binary64. *)
From Coq Require Import ZArith Bool String List Arith Lia.
From Flocq Require Import Core BinarySingleNaN.
From Verif Require Import Num NumBin Numpy PyVal LinalgModel StateModel BaseModel Estimators RegistryModel Spec.
From Verif Require Import ListLemmas BaseProofs RegistryProofs Shapes ClassShapes BlockShapes.
Import ListNotations.
Local Open Scope string_scope.
Local Open Scope list_scope.

(** ** Values that contaminate *)
Record contaminates {N : Num} (bad : N -> Prop) : Prop := mkCont {
  ct_add_l : forall a b, bad a -> bad (nadd a b);
  ct_add_r : forall a b, bad b -> bad (nadd a b);
  ct_sub_l : forall a b, bad a -> bad (nsub a b);
  ct_sub_r : forall a b, bad b -> bad (nsub a b);
  ct_mul_l : forall a b, bad a -> bad (nmul a b);
  ct_mul_r : forall a b, bad b -> bad (nmul a b);
  ct_div_l : forall a b, bad a -> bad (ndiv a b) }.
(** NaN also contaminates as a divisor and under the square root, and compares false. *)
Record nan_like {N : Num} (bad : N -> Prop) : Prop := mkNanLike {
  nl_cont : contaminates bad;
  nl_div_r : forall a b, bad b -> bad (ndiv a b);
  nl_sqrt : forall a, bad a -> bad (nsqrt a);
  nl_isnan : forall a, bad a -> nisnan a = true;
  nl_ltb : forall a b, bad a \/ bad b -> nltb a b = false;
  nl_leb : forall a b, bad a \/ bad b -> nleb a b = false }.

(** the instances *)
Definition x_nan (a : NumX) : Prop := a = NaN.
Definition x_not_finite (a : NumX) : Prop := match a with Fin _ => False | _ => True end.
Definition b_nan (a : NumB) : Prop := a = B754_nan.
Definition b_not_finite (a : NumB) : Prop := is_finite a = false.
Lemma inf_of_bad s : x_not_finite (xinf s).
Proof. unfold xinf. destruct (Z.ltb 0 s); [exact I|]. destruct (Z.ltb s 0); exact I. Qed.
Theorem C106_extended_nan : nan_like x_nan.
Proof.
  unfold x_nan. split; [split|..]; cbn; intros; subst; try reflexivity;
    try (destruct b; reflexivity); try (destruct a; reflexivity).
  - destruct H; subst; [reflexivity|destruct a; reflexivity].
  - destruct H; subst; [reflexivity|destruct a; reflexivity].
Qed.
Theorem C106_extended_infinite : contaminates x_not_finite.
Proof.
  split; cbn; intros a b H; destruct a, b; cbn in *; try contradiction; try exact I;
    repeat match goal with |- context [if ?c then _ else _] => destruct c; cbn end; try exact I;
    try apply inf_of_bad.
Qed.
Theorem C106_float_nan : nan_like b_nan.
Proof.
  unfold b_nan. split; [split|..]; cbn; intros; subst; try reflexivity;
    try (destruct b; reflexivity); try (destruct a; reflexivity).
  - destruct H; subst; [reflexivity|destruct a as [s|s| |s m e H]; reflexivity].
  - destruct H; subst; [reflexivity|destruct a as [s|s| |s m e H]; reflexivity].
Qed.
Theorem C106_float_infinite : contaminates b_not_finite.
Proof.
  unfold b_not_finite. split; cbn; intros a b H; destruct a as [sa|sa| |sa ma ea Ha], b as [sb|sb| |sb mb eb Hb]; cbn in *; try discriminate; try reflexivity;
    destruct sa, sb; reflexivity.
Qed.

(** ** Following an accepted stream *)
Section Follow.
  Context {N : Num} {C : EstClass N} (P : c_P C) (p : nat).
  (** what holds of the state after absorbing the rows [pre] *)
  Context (I : c_St C -> list (vec N) -> Prop).
  Context (H0 : forall s, c_init C P p = Ok s -> I s []).
  Context (HS : forall s x s' pre, length x = p -> I s pre -> c_update C P s x = Ok s' -> I s' (pre ++ [x])).
  Definition follows_at (o : inst C) (pre : list (vec N)) : Prop :=
    i_params o = P /\ match i_state o with None => pre = [] | Some s => I s pre end.

  Lemma absorb_follow o x pre o' : follows_at o pre -> length x = p -> absorb o x = (o', Ok tt) ->
    follows_at o' (pre ++ [x]) /\ i_prev o' = i_prev o /\ i_state o' <> None.
  Proof.
    intros [HP Hs] Hx. unfold absorb. destruct o as [P0 st nf pv]. cbn in *. subst P0. destruct st as [s|].
    - destruct (c_update C P s x) as [s1|e] eqn:E; intros H; inversion H; subst; clear H. cbn. repeat split; auto; [|congruence]. cbn. eapply HS; eauto.
    - subst pre. rewrite Hx. destruct (c_init C P p) as [s0|e] eqn:E0; [|intros H; inversion H].
      destruct (c_update C P s0 x) as [s1|e] eqn:E; intros H; inversion H; subst; clear H. cbn. repeat split; auto; [|congruence]. cbn.
      eapply (HS s0 x s1 []); eauto.
  Qed.
  Lemma fit_rows_plain rows : forall o pre o', c_diff C P = false -> follows_at o pre -> rows_of_length p rows ->
    fit_rows o rows = (o', Ok tt) -> follows_at o' (pre ++ rows) /\ (rows <> [] -> i_state o' <> None).
  Proof.
    induction rows as [|x rows IH]; intros o pre o' Hd Ho Hr E.
    - cbn in E. inversion E; subst. rewrite app_nil_r. split; [exact Ho|congruence].
    - pose proof (Forall_inv Hr) as Hx; pose proof (Forall_inv_tail Hr) as Hr'; cbn beta in Hx. cbn [fit_rows] in E. unfold fit_row in E. pose proof (proj1 Ho) as HP. rewrite HP, Hd in E.
      destruct (absorb o x) as [o1 [[]|e]] eqn:E1; [|inversion E].
      destruct (absorb_follow o x pre o1 Ho Hx E1) as (A1 & _ & A3).
      destruct (IH o1 (pre ++ [x]) o' Hd A1 Hr' E) as [B1 B2]. rewrite <- app_assoc in B1. split; [exact B1|]. intros _.
      destruct rows; [cbn in E; inversion E; subst; exact A3|apply B2; discriminate].
  Qed.
  Lemma fit_rows_diff rows : forall o x0 pre o', c_diff C P = true -> i_prev o = Some x0 -> length x0 = p -> follows_at o pre -> rows_of_length p rows ->
    fit_rows o rows = (o', Ok tt) -> follows_at o' (pre ++ differences (x0 :: rows)) /\ (rows <> [] -> i_state o' <> None).
  Proof.
    induction rows as [|x rows IH]; intros o x0 pre o' Hd Hv Hx0 Ho Hr E.
    - cbn in E. inversion E; subst. cbn [differences]. rewrite app_nil_r. split; [exact Ho|congruence].
    - pose proof (Forall_inv Hr) as Hx; pose proof (Forall_inv_tail Hr) as Hr'; cbn beta in Hx. cbn [fit_rows] in E. unfold fit_row in E. pose proof (proj1 Ho) as HP. rewrite HP, Hd, Hv in E.
      unfold vsub in E. rewrite bc_eqlen in E by congruence.
      destruct (absorb (mkInst P (i_state o) (i_nfeat o) (Some x)) (zipw nsub x x0)) as [o1 [[]|e]] eqn:E1; [|inversion E].
      assert (Ho1 : follows_at (mkInst P (i_state o) (i_nfeat o) (Some x)) pre) by (split; [reflexivity|exact (proj2 Ho)]).
      assert (Hz : length (zipw nsub x x0) = p) by (rewrite zipw_length; congruence).
      destruct (absorb_follow _ _ pre o1 Ho1 Hz E1) as (A1 & A2 & A3).
      destruct (IH o1 x (pre ++ [zipw nsub x x0]) o' Hd A2 Hx A1 Hr' E) as [B1 B2]. rewrite <- app_assoc in B1. split; [exact B1|]. intros _.
      destruct rows; [cbn in E; inversion E; subst; exact A3|apply B2; discriminate].
  Qed.
  Lemma follow_stream rows o : rows_of_length p rows -> partial_fit (new P) (In2 rows) = (o, Ok tt) ->
    absorbed (c_diff C P) rows <> [] -> exists s, i_state o = Some s /\ i_params o = P /\ I s (absorbed (c_diff C P) rows).
  Proof.
    intros Hr E Hne. unfold partial_fit in E. cbn [as_rows] in E.
    assert (F : follows_at (new P) []) by (split; reflexivity).
    assert (G : follows_at o (absorbed (c_diff C P) rows) /\ i_state o <> None).
    { unfold absorbed in *. destruct (c_diff C P) eqn:Hd.
      - destruct rows as [|x0 rows]; [cbn in Hne; congruence|]. pose proof (Forall_inv Hr) as Hx; pose proof (Forall_inv_tail Hr) as Hr'; cbn beta in Hx. cbn [fit_rows] in E. unfold fit_row in E. cbn [new i_params i_prev] in E. rewrite Hd in E.
        destruct (fit_rows_diff rows (mkInst P None None (Some x0)) x0 [] o Hd eq_refl Hx) as [A1 A2]; auto.
        split; [exact A1|]. apply A2. intros ->. cbn in Hne. congruence.
      - destruct (fit_rows_plain rows (new P) [] o Hd F Hr E) as [A1 A2]. split; [exact A1|]. now apply A2. }
    destruct G as ([G1 G2] & G3). destruct (i_state o) as [s|]; [|congruence]. eauto.
  Qed.
End Follow.

(** ** One step *)
Lemma vec_tab {N : Num} (x : vec N) p : length x = p -> x = tab p (vget x).
Proof. intros H. exact (tab_nth' x n0 p H). Qed.
Lemma vadd_tab {N : Num} p (f g : nat -> N) : vadd (tab p f) (tab p g) = Ok (tab p (fun i => nadd (f i) (g i))). Proof. apply bc_tab. Qed.
Lemma vsub_tab {N : Num} p (f g : nat -> N) : vsub (tab p f) (tab p g) = Ok (tab p (fun i => nsub (f i) (g i))). Proof. apply bc_tab. Qed.
Lemma vmul_tab {N : Num} p (f g : nat -> N) : vmul (tab p f) (tab p g) = Ok (tab p (fun i => nmul (f i) (g i))). Proof. apply bc_tab. Qed.
Lemma vscale_tab {N : Num} p c (f : nat -> N) : vscale c (tab p f) = tab p (fun i => nmul c (f i)). Proof. apply map_tab. Qed.
Lemma vdivs_tab {N : Num} p c (f : nat -> N) : vdivs (tab p f) c = tab p (fun i => ndiv (f i) c). Proof. apply map_tab. Qed.
Lemma madd_tab {N : Num} p q (f g : nat -> nat -> N) : madd (tab2 p q f) (tab2 p q g) = Ok (tab2 p q (fun i j => nadd (f i j) (g i j))). Proof. apply bc2_tab. Qed.
Lemma msub_tab {N : Num} p q (f g : nat -> nat -> N) : msub (tab2 p q f) (tab2 p q g) = Ok (tab2 p q (fun i j => nsub (f i j) (g i j))). Proof. apply bc2_tab. Qed.
Lemma mmap_tab {N : Num} p q h (f : nat -> nat -> N) : mmap h (tab2 p q f) = tab2 p q (fun i j => h (f i j)). Proof. apply map_tab2. Qed.
Lemma mscale_tab {N : Num} p q c (f : nat -> nat -> N) : mscale c (tab2 p q f) = tab2 p q (fun i j => nmul c (f i j)). Proof. apply map_tab2. Qed.
Lemma mdivs_tab {N : Num} p q c (f : nat -> nat -> N) : mdivs (tab2 p q f) c = tab2 p q (fun i j => ndiv (f i j) c). Proof. apply map_tab2. Qed.
Lemma outer_tab {N : Num} p q (f g : nat -> N) : outer (tab p f) (tab q g) = tab2 p q (fun i j => nmul (f i) (g j)).
Proof. unfold outer. rewrite map_tab. unfold tab2. apply tab_ext. intros. apply map_tab. Qed.

Lemma bind_assoc {A B D} (m : res A) (f : A -> res B) (g : B -> res D) : bind (bind m f) g = bind m (fun a => bind (f a) g).
Proof. destruct m; reflexivity. Qed.

Ltac tabs H := repeat (rewrite ?vsub_tab, ?vscale_tab, ?vdivs_tab, ?vadd_tab, ?vmul_tab in H; cbn [bind] in H).
Ltac drop H := repeat (first [progress tabs H | match type of H with
    | bind (if ?b then _ else _) _ = Ok _ => destruct b; cbn [bind] in H
    | (if ?b then _ else _) = Ok _ => destruct b
    | bind (bind _ _) _ = Ok _ => rewrite bind_assoc in H
    | bind ?e _ = Ok _ => destruct e; cbn [bind] in H; [|discriminate H]
    | (let (_, _) := ?e in _) = Ok _ => destruct e
    end]).

Section Bad.
  Context {N : Num} (L : LinAlg N) (fuel : nat) (bad : N -> Prop) (HB : contaminates bad).
  Let al := ct_add_l bad HB. Let ar := ct_add_r bad HB. Let sl := ct_sub_l bad HB. Let sr := ct_sub_r bad HB.
  Let ml := ct_mul_l bad HB. Let mr := ct_mul_r bad HB. Let dl := ct_div_l bad HB.

  (** the mean of the next state: contaminated where the mean or the row was *)
  Definition mean_after (p n : nat) (x m : nat -> N) (s' : dict N) : Prop :=
    getI "n_samples" s' = Ok (S n) /\
    exists m', getV "mean" s' = Ok (tab p m') /\ forall i, i < p -> bad (x i) \/ bad (m i) -> bad (m' i).
  Definition mean_step (upd : dict N -> vec N -> res (dict N)) : Prop :=
    forall p s x s' m n, getV "mean" s = Ok (tab p m) -> getI "n_samples" s = Ok n -> upd s (tab p x) = Ok s' -> mean_after p n x m s'.

  Lemma mean_a (x m : nat -> N) n i : bad (x i) \/ bad (m i) -> bad (nadd (m i) (ndiv (nsub (x i) (m i)) n)).
  Proof. intros [H|H]; auto. Qed.
  Lemma mean_b (x m : nat -> N) r r' i : bad (x i) \/ bad (m i) -> bad (nadd (nmul r' (m i)) (nmul r (x i))).
  Proof. intros [H|H]; auto. Qed.
  Lemma mean_c (x m : nat -> N) r w i : bad (x i) \/ bad (m i) -> bad (nadd (m i) (nmul r (nmul w (nsub (x i) (m i))))).
  Proof. intros [H|H]; auto. Qed.
  Ltac close := split; [reflexivity|]; eexists; split; [reflexivity|]; intros i Hi Hb; cbv beta; first [now apply mean_a|now apply mean_b|now apply mean_c].

  (** the output of [emp_update], with further keys after its own *)
  Lemma emp_mean_app p s x out m n extra : getV "mean" s = Ok (tab p m) -> getI "n_samples" s = Ok n -> emp_update s (tab p x) = Ok out ->
    mean_after p n x m (out ++ extra).
  Proof.
    intros Hm Hn. unfold emp_update. rewrite Hm, Hn. cbn [bind]. intros H.
    destruct (getM "cov" s); cbn [bind] in H; [|discriminate]. destruct (getI "n_dim" s); cbn [bind] in H; [|discriminate].
    rewrite vsub_tab in H. cbn [bind] in H. rewrite vdivs_tab, vadd_tab in H. cbn [bind] in H.
    destruct (vsub _ _); cbn [bind] in H; [|discriminate]. destruct (madd _ _); cbn [bind] in H; [|discriminate].
    injection H as <-. close.
  Qed.
  Lemma emp_mean : mean_step emp_update.
  Proof. intros p s x s' m n Hm Hn E. pose proof (emp_mean_app p s x s' m n [] Hm Hn E) as H. now rewrite app_nil_r in H. Qed.
  Ltac burn Hm Hn H := match type of H with bind (emp_update ?s ?x) _ = Ok _ =>
      let E := fresh in destruct (emp_update s x) eqn:E; cbn [bind] in H; [|discriminate H]; injection H as <-; exact (emp_mean_app _ _ _ _ _ _ _ Hm Hn E) end.
  Ltac get1 H := match type of H with bind (?g ?k ?s) _ = Ok _ => destruct (g k s); cbn [bind] in H; [|discriminate H] end.
  Lemma ewa_mean : mean_step ewa_update.
  Proof.
    intros p s x s' m n Hm Hn. unfold ewa_update. rewrite Hm, Hn. cbn [bind]. intros H.
    get1 H. get1 H. destruct (Nat.ltb _ _); [burn Hm Hn H|]. drop H. injection H as <-. close.
  Qed.
  Lemma diag_mean : mean_step diag_update.
  Proof.
    intros p s x s' m n Hm Hn. unfold diag_update. rewrite Hm, Hn. cbn [bind]. intros H.
    drop H; injection H as <-; close.
  Qed.
  Lemma ada_mean : mean_step (ada_update L).
  Proof.
    intros p s x s' m n Hm Hn. unfold ada_update. rewrite Hm, Hn. cbn [bind]. intros H.
    get1 H. get1 H. get1 H. get1 H. destruct (Nat.ltb _ _); [burn Hm Hn H|]. drop H; injection H as <-; close.
  Qed.
  Lemma lw_mean : mean_step lw_update.
  Proof.
    intros p s x s' m n Hm Hn. unfold lw_update. rewrite Hm, Hn. cbn [bind]. intros H.
    get1 H. get1 H. get1 H. destruct (Nat.ltb _ _); [burn Hm Hn H|]. drop H; injection H as <-; close.
  Qed.
  Lemma slw_mean P : mean_step (slw_update P).
  Proof.
    intros p s x s' m n Hm Hn. unfold slw_update. rewrite Hm, Hn. cbn [bind]. intros H.
    get1 H. get1 H. get1 H. destruct (Nat.ltb _ _); [burn Hm Hn H|]. drop H; injection H as <-; close.
  Qed.
  Lemma pm_mean : mean_step pm_update.
  Proof.
    intros p s x s' m n Hm Hn. unfold pm_update. rewrite Hm, Hn. cbn [bind]. intros H.
    get1 H. get1 H. get1 H. get1 H. tabs H. destruct (Nat.leb _ _); tabs H; drop H; injection H as <-; close.
  Qed.
  Lemma hub_mean P : mean_step (hub_update L P).
  Proof.
    intros p s x s' m n Hm Hn. unfold hub_update. rewrite Hm, Hn. cbn [bind]. intros H.
    get1 H. get1 H. destruct (Nat.ltb _ _); [burn Hm Hn H|]. drop H; injection H as <-; close.
  Qed.
  Lemma tyl_mean : mean_step (tyl_update L).
  Proof.
    intros p s x s' m n Hm Hn. unfold tyl_update. rewrite Hm, Hn. cbn [bind]. intros H.
    drop H; injection H as <-; close.
  Qed.
  Lemma geo_mean : mean_step (geo_update L).
  Proof.
    intros p s x s' m n Hm Hn. unfold geo_update. rewrite Hm, Hn. cbn [bind]. intros H.
    get1 H. get1 H. destruct (Nat.ltb _ _); [burn Hm Hn H|]. drop H; injection H as <-; close.
  Qed.
  Lemma dcc_mean : mean_step dcc_update.
  Proof.
    intros p s x s' m n Hm Hn. unfold dcc_update. rewrite Hm, Hn. cbn [bind]. intros H.
    drop H; injection H as <-; close.
  Qed.
  Lemma fac_mean : mean_step fac_update.
  Proof.
    intros p s x s' m n Hm Hn. unfold fac_update. rewrite Hm, Hn. cbn [bind]. intros H.
    drop H; injection H as <-; close.
  Qed.
End Bad.

(** ** location_ *)
Definition bad_in {N : Num} (bad : N -> Prop) (rows : list (vec N)) (i : nat) : Prop := exists x, In x rows /\ bad (vget x i).
Lemma bad_in_snoc {N : Num} (bad : N -> Prop) pre x i : bad_in bad (pre ++ [x]) i -> bad_in bad pre i \/ bad (vget x i).
Proof. intros (y & H & Hb). apply in_app_or in H. destruct H as [H|[<-|[]]]; [left; exists y; auto|now right]. Qed.
Lemma bad_in_nil {N : Num} (bad : N -> Prop) i : ~ bad_in bad [] i.
Proof. intros (y & [] & _). Qed.

Section Location.
  Context {N : Num} (L : LinAlg N) (fuel : nat) (bad : N -> Prop) (HB : contaminates bad).
  Definition mean_inv (p : nat) (s : dict N) (pre : list (vec N)) : Prop :=
    getI "n_samples" s = Ok (length pre) /\ exists m, getV "mean" s = Ok (tab p m) /\ forall i, i < p -> bad_in bad pre i -> bad (m i).
  Lemma mean_inv_step p upd s x s' pre : mean_step bad upd -> length x = p -> mean_inv p s pre -> upd s x = Ok s' -> mean_inv p s' (pre ++ [x]).
  Proof.
    intros HS Hx (Hn & m & Hm & Hb) E. rewrite (vec_tab x p Hx) in E.
    destruct (HS p s (vget x) s' m (length pre) Hm Hn E) as (E1 & m' & E2 & E3).
    split; [rewrite app_length, E1; cbn [length]; f_equal; lia|]. exists m'. split; [exact E2|]. intros i Hi H. apply E3; [exact Hi|].
    destruct (bad_in_snoc bad pre x i H); [right; now apply Hb|now left].
  Qed.
  (** what the theorem says of one class *)
  Definition location_spoiled (C : EstClass N) : Prop :=
    forall (P : c_P C) p rows o, rows_of_length p rows -> partial_fit (new P) (In2 rows) = (o, Ok tt) -> forall i, i < p ->
      bad_in bad (absorbed (c_diff C P) rows) i ->
      exists v, location_ o = Ok v /\ length v = p /\ bad (vget v i).
  Lemma spoiled_by name (PT : Type) diff init upd cov :
    (forall P p s, init P p = Ok s -> mean_inv p s []) -> (forall P, mean_step bad (upd P)) ->
    location_spoiled (dict_class (N := N) name PT diff init upd cov).
  Proof.
    intros HI HS P p rows o Hr E i Hi Hb. cbn [c_P dict_class] in P.
    destruct (follow_stream (C := dict_class name PT diff init upd cov) P p (mean_inv p) (HI P p)
      (fun s x s' pre Hx Hs Hu => mean_inv_step p (upd P) s x s' pre (HS P) Hx Hs Hu) rows o Hr E) as (s & Es & Ep & Hn & m & Hm & Hbm).
    { intros H. rewrite H in Hb. exact (bad_in_nil bad i Hb). }
    exists (tab p m). split; [|split; [apply tab_length|unfold vget; rewrite nth_tab by exact Hi; now apply Hbm]].
    unfold location_, fitted_state. rewrite Es. cbn [c_nsamples dict_class]. unfold dict_nsamples. rewrite Hn. cbn [get_or bind].
    destruct (absorbed _ rows) as [|x l] eqn:EA; [destruct (bad_in_nil bad i); exact Hb|]. cbn [length Nat.ltb Nat.leb bind]. exact Hm.
  Qed.
  Lemma zeros_inv p (s : dict N) : getI "n_samples" s = Ok 0 -> getV "mean" s = Ok (vzeros p) -> mean_inv p s [].
  Proof. intros H1 H2. split; [exact H1|]. exists (fun _ => n0). split; [exact H2|]. intros i _ H. destruct (bad_in_nil bad i H). Qed.
  Lemma ewa_inv p r s : ewa_init (N := N) p r = Ok s -> mean_inv p s [].
  Proof. unfold ewa_init. destruct (ewa_burn_n r); cbn [bind]; [|discriminate]. intros [= <-]. now apply zeros_inv. Qed.
  Lemma ewa_inv_app p r extra s : (d <- ewa_init (N := N) p r ;; Ok (d ++ extra)) = Ok s -> mean_inv p s [].
  Proof. unfold ewa_init. destruct (ewa_burn_n r); cbn [bind]; [|discriminate]. intros [= <-]. now apply zeros_inv. Qed.
  Lemma burn_inv p r mk s : (b <- ewa_burn_n (N := N) r ;; Ok (mk b)) = Ok s -> (forall b, mean_inv p (mk b) []) -> mean_inv p s [].
  Proof. destruct (ewa_burn_n r); cbn [bind]; [|discriminate]. intros [= <-] H. apply H. Qed.

  (** BlockCovariance: block by block *)
  Definition blk_inv (p : nat) (s : blk_state (N := N)) (pre : list (vec N)) : Prop :=
    b_dim s = p /\ b_n s = length pre /\ (exists sz, b_slices s = bounds 0 sz /\ list_sum sz = p) /\
    Forall2 (fun sub ab => getI "n_samples" sub = Ok (length pre) /\
      exists m, getV "mean" sub = Ok (tab (snd ab - fst ab) m) /\ forall i, i < snd ab - fst ab -> bad_in bad pre (fst ab + i) -> bad (m i))
      (b_subs s) (b_slices s).
  Lemma blk_inv_init P p s : blk_init P p = Ok s -> blk_inv p s [].
  Proof.
    unfold blk_init, slices. destruct (split_sizes p _) as [sz|] eqn:Esz; cbn [bind]; [|discriminate].
    destruct (ewa_burn_n (blk_r P)) as [b|] eqn:Eb; cbn [bind]; [|discriminate].
    destruct (mapM _ _) as [subs|] eqn:Em; cbn [bind]; [|discriminate]. intros [= <-].
    refine (conj eq_refl (conj eq_refl (conj _ _))).
    { exists sz. split; [reflexivity|]. now destruct (split_sizes_spec _ _ _ Esz) as (_ & _ & Hs & _). }
    cbn [b_subs b_slices length]. revert subs Em. generalize (bounds 0 sz). intros l. clear Esz sz.
    induction l as [|ab l IH]; intros subs Em; cbn [mapM] in Em; [injection Em as <-; constructor|].
    destruct (ewa_init _ _) as [d|] eqn:Ed; cbn [bind] in Em; [|discriminate]. destruct (mapM _ l) as [ds|]; cbn [bind] in Em; [|discriminate].
    injection Em as <-. constructor; [|now apply IH]. destruct (ewa_inv _ _ _ Ed) as (A & m & B & _). split; [exact A|]. exists m. split; [exact B|]. intros i _ H. destruct (bad_in_nil bad _ H).
  Qed.
  Lemma bounds_le sz : forall a ab, In ab (bounds a sz) -> fst ab <= snd ab /\ snd ab <= a + list_sum sz.
  Proof.
    induction sz as [|k sz IH]; intros a ab H; [destruct H|]. cbn [bounds] in H. cbn [list_sum fold_right]. change (fold_right Nat.add 0 sz) with (list_sum sz).
    destruct H as [<-|H]; cbn [fst snd]; [lia|]. destruct (IH _ _ H). lia.
  Qed.
  Lemma bounds_cover sz : forall a i, a <= i -> i < a + list_sum sz -> exists ab, In ab (bounds a sz) /\ in_block ab i = true.
  Proof.
    induction sz as [|k sz IH]; intros a i Ha Hi; cbn [list_sum fold_right] in Hi; [lia|]. change (fold_right Nat.add 0 sz) with (list_sum sz) in Hi. cbn [bounds].
    destruct (Nat.lt_ge_cases i (a + k)) as [H|H].
    - exists (a, a + k). split; [now left|]. unfold in_block. cbn [fst snd]. apply andb_true_intro. split; [now apply Nat.leb_le|now apply Nat.ltb_lt].
    - destruct (IH (a + k) i H ltac:(lia)) as (ab & H1 & H2). exists ab. split; [now right|exact H2].
  Qed.
  Lemma blk_inv_step p s x s' pre : length x = p -> blk_inv p s pre -> blk_update s x = Ok s' -> blk_inv p s' (pre ++ [x]).
  Proof.
    intros Hx (H1 & H2 & (sz & H3 & Hsz) & H4). unfold blk_update. destruct (zipM _ _ _) as [subs|] eqn:Ez; cbn [bind]; [|discriminate]. intros [= <-].
    refine (conj H1 (conj _ (conj _ _))); cbn [b_dim b_n b_slices b_subs]; [rewrite app_length, H2; cbn [length]; lia|eauto|].
    assert (HL : forall ab, In ab (b_slices s) -> fst ab <= snd ab /\ snd ab <= p) by (intros ab Hin; rewrite H3 in Hin; destruct (bounds_le _ _ _ Hin); split; [assumption|cbn [Nat.add] in *; now rewrite <- Hsz]).
    clear H1 H2 H3 Hsz sz. revert subs Ez HL. induction H4 as [|sub ab ds sl Hs H4 IH]; intros subs Ez HL; cbn [zipM] in Ez; [injection Ez as <-; constructor|].
    destruct (ewa_update _ _) as [d|] eqn:Ed; cbn [bind] in Ez; [|discriminate]. destruct (zipM _ ds sl) as [ds'|]; cbn [bind] in Ez; [|discriminate].
    injection Ez as <-. constructor; [|apply IH; [reflexivity|intros; apply HL; now right]].
    destruct Hs as (Hn & m & Hm & Hb). destruct (HL ab (or_introl eq_refl)) as [La Lb]. rewrite (vec_tab x p Hx), slice_tab in Ed by assumption.
    destruct (ewa_mean bad HB _ _ _ _ _ _ Hm Hn Ed) as (E1 & m' & E2 & E3).
    split; [rewrite app_length, E1; cbn [length]; f_equal; lia|]. exists m'. split; [exact E2|]. intros i Hi H. apply E3; [exact Hi|].
    destruct (bad_in_snoc bad pre x _ H); [right; now apply Hb|now left].
  Qed.
  Lemma ventry_bad l i : (exists ab v, In (ab, v) l /\ in_block ab i = true) -> (forall ab v, In (ab, v) l -> in_block ab i = true -> bad (vget v (i - fst ab))) -> bad (block_ventry l i).
  Proof.
    induction l as [|[ab v] l IH]; intros (ab0 & v0 & Hin & Hi) H; [destruct Hin|]. cbn [block_ventry]. destruct (in_block ab i) eqn:E; [apply H; [now left|exact E]|].
    apply IH; [|intros; eapply H; [right|]; eassumption]. destruct Hin as [[= <- <-]|Hin]; [congruence|]. eauto.
  Qed.
  Lemma spoiled_block : location_spoiled (Block L).
  Proof.
    intros P p rows o Hr E i Hi Hb. cbn [c_P Block] in P.
    destruct (follow_stream (C := Block L) P p (blk_inv p) (blk_inv_init P p) (blk_inv_step p) rows o Hr E) as (s & Es & Ep & H1 & H2 & (sz & H3 & Hsz) & H4).
    { intros H. rewrite H in Hb. exact (bad_in_nil bad i Hb). }
    cbn [c_diff Block] in H2.
    unfold location_, fitted_state. rewrite Es. cbn [c_nsamples c_mean Block get_or bind]. rewrite H2.
    destruct (Nat.ltb_spec (length (absorbed (blk_diff P) rows)) 1) as [Hz|_].
    { exfalso. destruct Hb as (y & Hin & _). cbn [c_diff Block] in Hin. destruct (absorbed (blk_diff P) rows); [destruct Hin|cbn [length] in Hz; lia]. }
    cbn [bind]. unfold blk_mean. cbn [c_diff Block] in Hb, H4.
    destruct (zipM_Forall2 (fun (sub : dict N) ab => m <- getV "mean" sub ;; Ok (ab, m)) (fun d ab => fst d = ab /\ length (snd d) = snd ab - fst ab /\
      forall k, k < snd ab - fst ab -> bad_in bad (absorbed (blk_diff P) rows) (fst ab + k) -> bad (vget (snd d) k)) (b_subs s) (b_slices s) _ H4) as (ds & Ez & Hds).
    { intros sub ab (_ & m & Em & Hm) _. rewrite Em. cbn [bind]. eexists. split; [reflexivity|]. cbn [fst snd]. split; [reflexivity|]. split; [apply tab_length|].
      intros k Hk Hbk. unfold vget. rewrite nth_tab by exact Hk. now apply Hm. }
    match goal with |- context [zipM ?f ?a ?b] => replace (zipM f a b) with (Ok ds) by (symmetry; exact Ez) end. cbn [bind].
    assert (F : forallb (fun e => Nat.eqb (length (snd e)) (snd (fst e) - fst (fst e))) ds = true).
    { clear -Hds. induction Hds as [|[d v] ab ds sl (Hd1 & Hd2 & _) Hds IH]; [reflexivity|]. cbn [forallb fst snd] in *. subst d. rewrite IH.
      replace (length v) with (snd ab - fst ab). now rewrite Nat.eqb_refl. }
    rewrite F. eexists. split; [reflexivity|]. rewrite H1. split; [apply tab_length|]. unfold vget. rewrite nth_tab by exact Hi.
    destruct (bounds_cover sz 0 i ltac:(lia) ltac:(cbn [Nat.add]; lia)) as (ab & Hin & Hib). rewrite <- H3 in Hin.
    apply ventry_bad.
    - clear -Hds Hin Hib. induction Hds as [|[d v] ab0 ds sl (Hd1 & _) Hds IH]; [destruct Hin|]. cbn [fst] in Hd1. subst d. destruct Hin as [->|Hin]; [exists ab, v; split; [now left|exact Hib]|].
      destruct (IH Hin) as (a' & v' & A & B). exists a', v'. split; [now right|exact B].
    - intros ab' v Hin' Hib'. clear -Hds Hin' Hib' Hb. induction Hds as [|[d v0] ab0 ds sl (Hd1 & Hd2 & Hd3) Hds IH]; [destruct Hin'|]. cbn [fst snd] in *. subst d.
      destruct Hin' as [[= -> ->]|Hin']; [|now apply IH]. unfold in_block in Hib'. apply andb_prop in Hib'. destruct Hib' as [A B]. apply Nat.leb_le in A. apply Nat.ltb_lt in B.
      apply Hd3; [lia|]. now replace (fst ab' + (i - fst ab')) with i by lia.
  Qed.
End Location.

(** location_: wherever a column of the absorbed rows held such a value once, location_ has one for good; whatever the class, its parameters and the
    length of the stream (and however large the learning rate: with [r] = 1 the old mean has weight zero, but 0 * NaN is NaN). *)
Theorem C106_location : forall (N : Num) (L : LinAlg N) (bad : N -> Prop), contaminates bad ->
  forall fuel k, In k (registry L fuel) -> location_spoiled bad (rg_class k).
Proof.
  intros N L bad HB fuel k. unfold registry. cbn [In]. intros H.
  repeat (destruct H as [<-|H]; [cbn [rg_class]; first [exact (spoiled_block L bad HB) | apply (spoiled_by bad)]|]); [..|destruct H].
  all: try (intros P p s; first [exact (ewa_inv bad p _ s)|exact (ewa_inv_app bad p _ _ s)|intros H; apply (burn_inv bad p _ _ s H); intros b; apply zeros_inv; reflexivity]).
  all: try (intros P; first [apply emp_mean|apply ewa_mean|apply diag_mean|apply ada_mean|apply lw_mean|apply slw_mean|apply pm_mean|apply hub_mean|apply tyl_mean|apply geo_mean|apply dcc_mean|apply fac_mean]; exact HB).
  - intros P p s [= <-]. now apply zeros_inv.
  - intros P p s. unfold fac_init. destruct (_ <? 0)%Z; [discriminate|]. intros [= <-]. now apply zeros_inv.
Qed.

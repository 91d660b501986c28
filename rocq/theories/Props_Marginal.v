(** * C21, law-free: choosing columns before or after fitting gives the same numbers, bit for bit

    For every number type (so also for float64 with its rounding, infinities and NaN) and every choice of columns. *)
From Coq Require Import ZArith Bool String List Lia Arith.
From Verif Require Import Num NumFloat Numpy PyVal LinalgModel StateModel BaseModel Estimators Spec ListLemmas BaseProofs Shapes ClassShapes.
Import ListNotations.
Local Open Scope string_scope.

(** ** Specification *)
(** the [q] columns [s 0], [s 1], ... of an observation, and the corresponding sub-matrix *)
Definition columns {N : Num} (q : nat) (s : nat -> nat) (x : vec N) : vec N := map (fun i => vget x (s i)) (seq 0 q).
Definition submatrix {N : Num} (q : nat) (s : nat -> nat) (m : mat N) : mat N := map (fun i => map (fun j => mget m (s i) (s j)) (seq 0 q)) (seq 0 q).
(** the same exception, or the image of the value *)
Definition on_value {A B} (f : A -> B) (r : res A) : res B := match r with Ok a => Ok (f a) | Err e => Err e end.
(** Fitting on the chosen columns of all rows: the same outcome and count; location_, covariance_ and correlation_ are the chosen part of
    what the estimator fitted on all columns reports. *)
Definition column_wise {N} (C : EstClass N) (ok : nat -> (nat -> nat) -> Prop) : Prop :=
  forall P p q s rows, 1 <= p -> 1 <= q -> (forall i, i < q -> s i < p) -> ok q s -> rows_of_length p rows ->
    let o := fst (partial_fit (new (C := C) P) (In2 rows)) in let o' := fst (partial_fit (new (C := C) P) (In2 (map (columns q s) rows))) in
    snd (partial_fit (new (C := C) P) (In2 (map (columns q s) rows))) = snd (partial_fit (new (C := C) P) (In2 rows)) /\
    n_samples_ o' = n_samples_ o /\ location_ o' = on_value (columns q s) (location_ o) /\
    covariance_ o' = on_value (submatrix q s) (covariance_ o) /\ correlation_ o' = on_value (submatrix q s) (correlation_ o).
(** The same for the outcome, the count and location_ only. *)
Definition location_wise {N} (C : EstClass N) : Prop :=
  forall P p q s rows, 1 <= p -> 1 <= q -> (forall i, i < q -> s i < p) -> rows_of_length p rows ->
    let o := fst (partial_fit (new (C := C) P) (In2 rows)) in let o' := fst (partial_fit (new (C := C) P) (In2 (map (columns q s) rows))) in
    snd (partial_fit (new (C := C) P) (In2 (map (columns q s) rows))) = snd (partial_fit (new (C := C) P) (In2 rows)) /\
    n_samples_ o' = n_samples_ o /\ location_ o' = on_value (columns q s) (location_ o).

(** ** Related results *)
Definition rr {A B} (R : A -> B -> Prop) (x : res A) (y : res B) : Prop := match x, y with Ok a, Ok b => R a b | Err e, Err e' => e = e' | _, _ => False end.
Lemma rr_bind {A B A' B'} (R : A -> A' -> Prop) (Q : B -> B' -> Prop) m m' f f' : rr R m m' -> (forall a a', R a a' -> rr Q (f a) (f' a')) -> rr Q (bind m f) (bind m' f').
Proof. destruct m, m'; cbn; intros H K; try contradiction; auto. Qed.
Lemma rr_eq {A} (m : res A) : rr eq m m.
Proof. destruct m; reflexivity. Qed.
Section Rel.
  Context {N : Num} (p q : nat) (s : nat -> nat) (Hp : 1 <= p) (Hq : 1 <= q) (Hs : forall i, i < q -> s i < p).
  Definition vr (v v' : vec N) : Prop := exists f, v = tab p f /\ v' = tab q (fun i => f (s i)).
  Definition mr (m m' : mat N) : Prop := exists f, m = tab2 p p f /\ m' = tab2 q q (fun i j => f (s i) (s j)).
  Lemma vr_columns v : length v = p -> vr v (columns q s v).
  Proof. intros H. exists (fun i => vget v i). split; [now apply tab_nth'|reflexivity]. Qed.
  Lemma vr_inv v v' : vr v v' -> v' = columns q s v.
  Proof. intros (f & -> & ->). unfold columns. apply tab_ext. intros i Hi. unfold vget. now rewrite nth_tab by auto. Qed.
  Lemma mget_tab2 (f : nat -> nat -> N) i j : i < p -> j < p -> mget (tab2 p p f) i j = f i j.
  Proof. intros Hi Hj. unfold mget. now rewrite nth_tab2, nth_tab by auto. Qed.
  Lemma mr_inv m m' : mr m m' -> m' = submatrix q s m.
  Proof. intros (f & -> & ->). unfold submatrix. apply tab_ext. intros i Hi. apply tab_ext. intros j Hj. now rewrite mget_tab2 by auto. Qed.
  Lemma vr_bc h a a' b b' : vr a a' -> vr b b' -> rr vr (bc h a b) (bc h a' b').
  Proof. intros (f & -> & ->) (g & -> & ->). rewrite !bc_tab. cbn. exists (fun i => h (f i) (g i)). auto. Qed.
  Lemma vr_map h a a' : vr a a' -> vr (map h a) (map h a').
  Proof. intros (f & -> & ->). rewrite !map_tab. exists (fun i => h (f i)). auto. Qed.
  Lemma vr_const c : vr (tab p (fun _ => c)) (tab q (fun _ => c)).
  Proof. exists (fun _ => c). auto. Qed.
  Lemma mr_bc h a a' b b' : mr a a' -> mr b b' -> rr mr (bc2 h a b) (bc2 h a' b').
  Proof. intros (f & -> & ->) (g & -> & ->). rewrite !bc2_tab. cbn. exists (fun i j => h (f i j) (g i j)). auto. Qed.
  Lemma mr_map h a a' : mr a a' -> mr (mmap h a) (mmap h a').
  Proof. intros (f & -> & ->). unfold mmap. rewrite !map_tab2. exists (fun i j => h (f i j)). auto. Qed.
  Lemma mr_outer a a' b b' : vr a a' -> vr b b' -> mr (outer a b) (outer a' b').
  Proof.
    intros (f & -> & ->) (g & -> & ->). exists (fun i j => nmul (f i) (g j)). unfold outer, tab2. rewrite !map_tab. split; apply tab_ext; intros i Hi; now rewrite map_tab.
  Qed.
  Lemma diagonal_tab n (f : nat -> nat -> N) : 1 <= n -> diagonal (tab2 n n f) = tab n (fun i => f i i).
  Proof.
    intros Hn. unfold diagonal, nrows, ncols. rewrite tab2_length. replace (length (hd [] (tab2 n n f))) with n.
    - rewrite Nat.min_id. apply tab_ext. intros i Hi. unfold mget. now rewrite nth_tab2, nth_tab by auto.
    - destruct n; [lia|]. unfold tab2 at 1. rewrite tab_S. cbn [hd]. now rewrite tab_length.
  Qed.
  Lemma mr_diagonal a a' : mr a a' -> vr (diagonal a) (diagonal a').
  Proof. intros (f & -> & ->). rewrite !diagonal_tab by auto. exists (fun i => f i i). auto. Qed.
  Lemma transpose_tab n (f : nat -> nat -> N) : 1 <= n -> transpose (tab2 n n f) = tab2 n n (fun i j => f j i).
  Proof.
    intros Hn. unfold transpose, nrows, ncols. rewrite tab2_length. replace (length (hd [] (tab2 n n f))) with n.
    - apply tab2_ext. intros i j Hi Hj. unfold mget. now rewrite nth_tab2, nth_tab by auto.
    - destruct n; [lia|]. unfold tab2 at 1. rewrite tab_S. cbn [hd]. now rewrite tab_length.
  Qed.
  Lemma mr_transpose a a' : mr a a' -> mr (transpose a) (transpose a').
  Proof. intros (f & -> & ->). rewrite !transpose_tab by auto. exists (fun i j => f j i). auto. Qed.
  Lemma mr_symmetric a a' : mr a a' -> rr mr (to_symmetric a) (to_symmetric a').
  Proof.
    intros H. unfold to_symmetric, madd. apply (rr_bind mr mr); [apply mr_bc; [exact H|now apply mr_transpose]|]. intros b b' Hb. cbn. now apply mr_map.
  Qed.
  Lemma mr_corr a a' : mr a a' -> rr mr (cov_to_corrcoef a) (cov_to_corrcoef a').
  Proof.
    intros H. unfold cov_to_corrcoef, mdiv. apply mr_bc; [exact H|]. destruct (mr_diagonal a a' H) as (f & -> & ->).
    exists (fun i j => nadd (nsqrt (nmul (f j) (f i))) EPS). unfold tab2. rewrite !map_tab. split; apply tab_ext; intros i Hi; now rewrite map_tab.
  Qed.
  Lemma mr_mdiag a a' : (forall i j, i < q -> j < q -> s i = s j -> i = j) -> vr a a' -> mr (mdiag a) (mdiag a').
  Proof.
    intros Hi (f & -> & ->). exists (fun i j => if Nat.eqb i j then f i else n0). unfold mdiag. rewrite !tab_length. split; apply tab2_ext; intros i j Hi1 Hj1; unfold vget; rewrite nth_tab by auto; auto.
    destruct (Nat.eqb_spec i j) as [->|Hn]; [now rewrite Nat.eqb_refl|]. destruct (Nat.eqb_spec (s i) (s j)); [exfalso; auto|reflexivity].
  Qed.
  Lemma mr_eye : (forall i j, i < q -> j < q -> s i = s j -> i = j) -> mr (meye p) (meye q).
  Proof.
    intros Hi. exists (fun i j => if Nat.eqb i j then n1 else n0). split; [reflexivity|]. unfold meye. apply tab2_ext. intros i j Hi1 Hj1.
    destruct (Nat.eqb_spec i j) as [->|Hn]; [now rewrite Nat.eqb_refl|]. destruct (Nat.eqb_spec (s i) (s j)); [exfalso; auto|reflexivity].
  Qed.

  (** *** Related states: the same keys; counts and rates equal, arrays restricted; n_dim is p and q *)
  Definition valr (k : string) (v v' : pyval N) : Prop :=
    match v, v' with
    | VInt a, VInt b => k = "n_dim" \/ a = b
    | VNum a, VNum b => a = b
    | VArr (A1 a), VArr (A1 b) => vr a b
    | VArr (A2 a), VArr (A2 b) => mr a b
    | _, _ => False
    end.
  Definition dr (d d' : dict N) : Prop := Forall2 (fun kv kv' => fst kv = fst kv' /\ valr (fst kv) (snd kv) (snd kv')) d d'.
  Lemma dr_get k d d' : dr d d' -> match dget k d, dget k d' with Some v, Some v' => valr k v v' | None, None => True | _, _ => False end.
  Proof.
    intros H. induction H as [|[a v] [a' v'] d d' [E1 E2] H IH]; [exact I|]. cbn [fst snd] in *. subst a'. cbn [dget]. destruct (String.eqb_spec k a) as [->|]; auto.
  Qed.
  Ltac get_tac k d d' H := intros; pose proof (dr_get k d d' H) as G; destruct (dget k d) as [v|], (dget k d') as [v'|]; try contradiction; try reflexivity;
    destruct v as [?|?|[?|?|?]], v' as [?|?|[?|?|?]]; cbn in *; try contradiction; try reflexivity; auto.
  Lemma dr_I k d d' : dr d d' -> k <> "n_dim" -> rr eq (getI k d) (getI k d').
  Proof. intros H Hk. unfold getI. get_tac k d d' H. destruct G; [contradiction|assumption]. Qed.
  Lemma dr_dim k d d' : dr d d' -> rr (fun _ _ => True) (getI k d) (getI k d').
  Proof. intros H. unfold getI. get_tac k d d' H. Qed.
  Lemma dr_N k d d' : dr d d' -> k <> "n_dim" -> rr eq (getN k d) (getN k d').
  Proof. intros H Hk. unfold getN. get_tac k d d' H. destruct G as [|<-]; [contradiction|reflexivity]. Qed.
  Lemma dr_V k d d' : dr d d' -> rr vr (getV k d) (getV k d').
  Proof. intros H. unfold getV. get_tac k d d' H. Qed.
  Lemma dr_M k d d' : dr d d' -> rr mr (getM k d) (getM k d').
  Proof.
    intros H. unfold getM. get_tac k d d' H.
    destruct G as (f & -> & ->). destruct p as [|p']; [lia|]. destruct q as [|q']; [lia|]. rewrite !tab_S. reflexivity.
  Qed.
  Lemma dr_app a a' b b' : dr a a' -> dr b b' -> dr (a ++ b)%list (a' ++ b')%list.
  Proof. apply Forall2_app. Qed.
  Lemma vr_divs c a a' : vr a a' -> vr (vdivs a c) (vdivs a' c). Proof. apply vr_map. Qed.
  Lemma vr_scale c a a' : vr a a' -> vr (vscale c a) (vscale c a'). Proof. apply vr_map. Qed.
  Lemma mr_scale c a a' : mr a a' -> mr (mscale c a) (mscale c a'). Proof. apply mr_map. Qed.
  Lemma mr_divs c a a' : mr a a' -> mr (mdivs a c) (mdivs a' c). Proof. apply mr_map. Qed.
End Rel.
Ltac vmside := repeat first [assumption | apply vr_divs | apply vr_scale | apply mr_scale | apply mr_divs | apply mr_outer | apply vr_map | apply mr_map].
Ltac stp p q s := first
  [ apply (rr_bind eq); [apply (dr_I p q s); [eassumption|discriminate]|intros ? ? <-]
  | apply (rr_bind eq); [apply (dr_N p q s); [eassumption|discriminate]|intros ? ? <-]
  | apply (rr_bind (fun _ _ => True)); [apply (dr_dim p q s); eassumption|intros ? ? _]
  | apply (rr_bind (vr p q s)); [apply (dr_V p q s); eassumption|intros ? ? ?]
  | apply (rr_bind (mr p q s)); [apply (dr_M p q s); assumption|intros ? ? ?]
  | apply (rr_bind (vr p q s)); [apply (vr_bc p q s); vmside; fail|intros ? ? ?]
  | apply (rr_bind (mr p q s)); [apply (mr_bc p q s); vmside; fail|intros ? ? ?] ].
Ltac st := match goal with _ : dr ?p ?q ?s _ _ |- _ => stp p q s end.
Ltac dr_end := cbn [rr]; repeat (constructor; [split; [reflexivity|cbn [valr fst snd]; auto]|]); try constructor.
Section Up.
  Context {N : Num} (p q : nat) (s : nat -> nat) (Hp : 1 <= p) (Hq : 1 <= q) (Hs : forall i, i < q -> s i < p).
  Notation dr := (dr (N := N) p q s).
  Notation vr := (vr (N := N) p q s).
  Lemma up_emp d d' x x' : dr d d' -> vr x x' -> rr dr (emp_update d x) (emp_update d' x').
  Proof. intros Hd Hx. unfold emp_update. repeat st. dr_end. Qed.
  Lemma up_ewa d d' x x' : dr d d' -> vr x x' -> rr dr (ewa_update d x) (ewa_update d' x').
  Proof.
    intros Hd Hx. unfold ewa_update. repeat st. destruct (Nat.ltb _ _).
    - eapply rr_bind; [apply up_emp; assumption|]. intros e e' He. cbn [rr]. apply dr_app; [exact He|]. dr_end.
    - repeat st. dr_end.
  Qed.
  Lemma up_diag d d' x x' : dr d d' -> vr x x' -> rr dr (diag_update d x) (diag_update d' x').
  Proof.
    intros Hd Hx. unfold diag_update. repeat st.
    eapply (rr_bind (fun a b => vr (fst a) (fst b) /\ vr (snd a) (snd b))).
    - destruct (Nat.leb _ _); repeat st; cbn; auto.
    - intros [m v] [m' v'] [Hm Hv]. cbn [fst snd] in *. dr_end.
  Qed.
  Lemma up_dcc d d' x x' : dr d d' -> vr x x' -> rr dr (dcc_update d x) (dcc_update d' x').
  Proof.
    intros Hd Hx. unfold dcc_update. repeat st.
    eapply (rr_bind (fun a b => vr (fst a) (fst b) /\ vr (snd a) (snd b))).
    - destruct (Nat.leb _ _); repeat st; cbn; auto.
    - intros [m v] [m' v'] [Hm Hv]. cbn [fst snd] in *. repeat st.
      eapply (rr_bind (mr p q s)); [destruct (Nat.leb _ _); repeat st; apply mr_bc; vmside|]. intros Q Q' HQ. dr_end.
  Qed.
  Lemma init_emp : dr (emp_init p) (emp_init q).
  Proof. unfold emp_init. dr_end; [apply vr_const|]. exists (fun _ _ => n0). auto. Qed.
  Lemma init_ewa r : rr dr (ewa_init p r) (ewa_init q r).
  Proof. unfold ewa_init. eapply (rr_bind eq); [apply rr_eq|]. intros b ? <-. cbn [rr]. apply dr_app; [apply init_emp|]. dr_end. Qed.
  Lemma init_diag P : rr dr (diag_init P p) (diag_init P q).
  Proof. unfold diag_init. eapply (rr_bind eq); [apply rr_eq|]. intros b ? <-. dr_end; apply vr_const. Qed.
  Lemma init_dcc P : (forall i j, i < q -> j < q -> s i = s j -> i = j) -> rr dr (dcc_init P p) (dcc_init P q).
  Proof.
    intros Hi. unfold dcc_init. eapply (rr_bind eq); [apply rr_eq|]. intros b ? <-. cbn [rr]. apply dr_app; [apply init_emp|]. dr_end; [apply vr_const|now apply mr_eye].
  Qed.
  Lemma cov_dcc d d' : dr d d' -> rr (mr p q s) (dcc_cov d) (dcc_cov d').
  Proof.
    intros Hd. unfold dcc_cov. st. st. apply (rr_bind (mr p q s)); [apply mr_bc; [assumption|apply mr_outer; apply vr_map; apply (mr_diagonal p q s Hp Hq); assumption]|]. intros R R' HR. apply mr_bc; vmside.
  Qed.

  (** *** Related instances *)
  Section Inst.
    Context (name : string) (P : Type) (diff : P -> bool) (init : P -> nat -> res (dict N)) (update : P -> dict N -> vec N -> res (dict N)) (cov : P -> dict N -> res (mat N)) (Pm : P).
    Context (Hinit : rr dr (init Pm p) (init Pm q)) (Hupd : forall d d' x x', dr d d' -> vr x x' -> rr dr (update Pm d x) (update Pm d' x'))
      (Hcov : forall d d', dr d d' -> rr (mr p q s) (cov Pm d) (cov Pm d')).
    Notation C := (dict_class (N := N) name P diff init update cov).
    Definition opr {A B} (R : A -> B -> Prop) (a : option A) (b : option B) : Prop := match a, b with Some x, Some y => R x y | None, None => True | _, _ => False end.
    Definition ir (o o' : inst C) : Prop := i_params o = Pm /\ i_params o' = Pm /\ opr dr (i_state o) (i_state o') /\ opr vr (i_prev o) (i_prev o').
    Lemma vr_len x x' : vr x x' -> length x = p /\ length x' = q.
    Proof. intros (f & -> & ->). now rewrite !tab_length. Qed.
    Lemma absorb_ir o o' x x' : ir o o' -> vr x x' -> ir (fst (absorb o x)) (fst (absorb o' x')) /\ snd (absorb o x) = snd (absorb o' x').
    Proof.
      destruct o as [P1 st1 nf1 pv1], o' as [P2 st2 nf2 pv2]. intros (E1 & E2 & H1 & H2) Hx. cbn [i_params i_state i_nfeat i_prev] in *. subst P1 P2. destruct (vr_len _ _ Hx) as [L1 L2].
      unfold absorb. cbn [i_params i_state i_nfeat i_prev c_update c_init dict_class]. destruct st1 as [d|], st2 as [d'|]; try contradiction.
      - pose proof (Hupd d d' x x' H1 Hx) as K. destruct (update Pm d x), (update Pm d' x'); cbn in K; try contradiction; [|subst]; (split; [repeat split; auto|reflexivity]).
      - rewrite L1, L2. destruct (init Pm p) as [d|], (init Pm q) as [d'|]; cbn in Hinit; try contradiction; [|subst; split; [repeat split; auto|reflexivity]].
        pose proof (Hupd d d' x x' Hinit Hx) as K. destruct (update Pm d x), (update Pm d' x'); cbn in K; try contradiction; [|subst]; (split; [repeat split; auto|reflexivity]).
    Qed.
    Lemma fit_row_ir o o' x x' : ir o o' -> vr x x' -> ir (fst (fit_row o x)) (fst (fit_row o' x')) /\ snd (fit_row o x) = snd (fit_row o' x').
    Proof.
      intros I Hx. pose proof I as (E1 & E2 & H1 & H2). unfold fit_row. rewrite E1, E2. destruct (c_diff C Pm); [|now apply absorb_ir].
      destruct (i_prev o) as [v|] eqn:EP, (i_prev o') as [v'|] eqn:EP'; try contradiction; [|split; [repeat split; auto|reflexivity]].
      pose proof (vr_bc p q s nsub x x' v v' Hx H2) as K. unfold vsub. destruct (bc nsub x v) as [w|], (bc nsub x' v') as [w'|]; cbn in K; try contradiction.
      - apply absorb_ir; [repeat split; auto|exact K].
      - subst. split; [exact I|reflexivity].
    Qed.
    Lemma fit_rows_ir rows : forall o o', ir o o' -> rows_of_length p rows -> ir (fst (fit_rows o rows)) (fst (fit_rows o' (map (columns q s) rows))) /\
      snd (fit_rows o' (map (columns q s) rows)) = snd (fit_rows o rows).
    Proof.
      induction rows as [|x rows IH]; intros o o' I Hr; [split; [exact I|reflexivity]|]. pose proof (Forall_inv Hr) as Hx. pose proof (Forall_inv_tail Hr) as Hr'. cbv beta in Hx.
      cbn [fit_rows map]. destruct (fit_row_ir o o' x (columns q s x) I (vr_columns p q s x Hx)) as [I' E']. destruct (fit_row o x) as [o1 r1], (fit_row o' _) as [o2 r2]. cbn [fst snd] in *. subst r2.
      destruct r1; [now apply IH|split; [exact I'|reflexivity]].
    Qed.
    Lemma ns_ir o o' : ir o o' -> n_samples_ o' = n_samples_ o.
    Proof.
      destruct o as [P1 st1 nf1 pv1], o' as [P2 st2 nf2 pv2]. intros (E1 & E2 & H1 & H2). cbn [i_params i_state i_nfeat i_prev] in *. subst P1 P2.
      unfold n_samples_. cbn [i_state c_nsamples dict_class]. destruct st1 as [d|], st2 as [d'|]; try contradiction; [|reflexivity].
      pose proof (dr_I p q s "n_samples" d d' H1 ltac:(discriminate)) as K. unfold dict_nsamples. destruct (getI "n_samples" d), (getI "n_samples" d'); cbn in K; try contradiction; congruence.
    Qed.
    Lemma fs_ir o o' : ir o o' -> rr dr (fitted_state o) (fitted_state o').
    Proof.
      intros I. pose proof (ns_ir o o' I) as NS. destruct o as [P1 st1 nf1 pv1], o' as [P2 st2 nf2 pv2]. destruct I as (E1 & E2 & H1 & H2). cbn [i_params i_state i_nfeat i_prev] in *. subst P1 P2.
      unfold fitted_state. revert NS. unfold n_samples_. cbn [i_state]. destruct st1 as [d|], st2 as [d'|]; try contradiction; [|reflexivity].
      intros ->. destruct (get_or 0 (c_nsamples C d)) as [n|]; [cbn [bind]|reflexivity]. destruct (Nat.ltb n 1); [reflexivity|exact H1].
    Qed.
    Lemma loc_ir o o' : ir o o' -> location_ o' = on_value (columns q s) (location_ o).
    Proof.
      intros I. pose proof (fs_ir o o' I) as FS. destruct I as (E1 & E2 & H1 & H2). unfold location_.
      assert (K : rr vr (d <- fitted_state o ;; c_mean C (i_params o) d) (d <- fitted_state o' ;; c_mean C (i_params o') d)).
      { apply (rr_bind dr); [exact FS|]. intros d d' Hd. exact (dr_V p q s "mean" d d' Hd). }
      destruct (bind (fitted_state o) _), (bind (fitted_state o') _); cbn in K |- *; try contradiction; [|congruence]. apply f_equal. now apply (vr_inv p q s Hs).
    Qed.
    Lemma reads_ir o o' : ir o o' -> n_samples_ o' = n_samples_ o /\ location_ o' = on_value (columns q s) (location_ o) /\
      covariance_ o' = on_value (submatrix q s) (covariance_ o) /\ correlation_ o' = on_value (submatrix q s) (correlation_ o).
    Proof.
      intros I. pose proof (fs_ir o o' I) as FS.
      assert (CV : rr (mr p q s) (covariance_ o) (covariance_ o')).
      { pose proof I as (E1 & E2 & _). unfold covariance_. rewrite E1, E2. apply (rr_bind dr); [exact FS|]. intros d d' Hd. apply (rr_bind (mr p q s)); [exact (Hcov d d' Hd)|]. intros c c' Hc. now apply mr_symmetric. }
      split; [now apply ns_ir|]. split; [now apply loc_ir|split].
      - destruct (covariance_ o), (covariance_ o'); cbn in CV |- *; try contradiction; [|congruence]. apply f_equal. now apply (mr_inv p q s Hs).
      - assert (K : rr (mr p q s) (correlation_ o) (correlation_ o')).
        { unfold correlation_. eapply rr_bind; [exact CV|]. intros c c' Hc. now apply mr_corr. }
        destruct (correlation_ o), (correlation_ o'); cbn in K |- *; try contradiction; [|congruence]. apply f_equal. now apply (mr_inv p q s Hs).
    Qed.
  End Inst.
End Up.
Lemma column_wise_by {N} name P diff init update cov (ok : nat -> (nat -> nat) -> Prop) :
  (forall Pm p q s, 1 <= p -> 1 <= q -> (forall i, i < q -> s i < p) -> ok q s -> rr (dr p q s) (init Pm p) (init Pm q)) ->
  (forall Pm p q s d d' x x', 1 <= p -> 1 <= q -> (forall i, i < q -> s i < p) -> dr p q s d d' -> vr p q s x x' -> rr (dr p q s) (update Pm d x) (update Pm d' x')) ->
  (forall Pm p q s d d', 1 <= p -> 1 <= q -> (forall i, i < q -> s i < p) -> ok q s -> dr p q s d d' -> rr (mr p q s) (cov Pm d) (cov Pm d')) ->
  column_wise (dict_class (N := N) name P diff init update cov) ok.
Proof.
  intros H1 H2 H3 Pm p q s rows Hp Hq Hs Hok Hr o o'.
  assert (I0 : ir p q s name P diff init update cov Pm (new (C := dict_class (N := N) name P diff init update cov) Pm) (new (C := dict_class (N := N) name P diff init update cov) Pm)) by (repeat split; exact I).
  destruct (fit_rows_ir p q s name P diff init update cov Pm (H1 Pm p q s Hp Hq Hs Hok) (fun d d' x x' => H2 Pm p q s d d' x x' Hp Hq Hs) rows _ _ I0 Hr) as [I1 E1].
  split; [exact E1|]. exact (reads_ir p q s Hp Hq Hs name P diff init update cov Pm (fun d d' => H3 Pm p q s d d' Hp Hq Hs Hok) _ _ I1).
Qed.
Lemma location_wise_by {N} name P diff init update cov :
  (forall Pm p q s, 1 <= p -> 1 <= q -> (forall i, i < q -> s i < p) -> rr (dr p q s) (init Pm p) (init Pm q)) ->
  (forall Pm p q s d d' x x', 1 <= p -> 1 <= q -> (forall i, i < q -> s i < p) -> dr p q s d d' -> vr p q s x x' -> rr (dr p q s) (update Pm d x) (update Pm d' x')) ->
  location_wise (dict_class (N := N) name P diff init update cov).
Proof.
  intros H1 H2 Pm p q s rows Hp Hq Hs Hr o o'.
  assert (I0 : ir p q s name P diff init update cov Pm (new (C := dict_class (N := N) name P diff init update cov) Pm) (new (C := dict_class (N := N) name P diff init update cov) Pm)) by (repeat split; exact I).
  destruct (fit_rows_ir p q s name P diff init update cov Pm (H1 Pm p q s Hp Hq Hs) (fun d d' x x' => H2 Pm p q s d d' x x' Hp Hq Hs) rows _ _ I0 Hr) as [I1 E1].
  split; [exact E1|]. split; [exact (ns_ir p q s name P diff init update cov Pm _ _ I1)|exact (loc_ir p q s Hs name P diff init update cov Pm _ _ I1)].
Qed.

(** ** C21 *)
(** any columns, in any order, repetitions allowed *)
Theorem C21_columns_bitwise : forall N : Num, column_wise (Empirical (N := N)) (fun _ _ => True) /\ column_wise (Ewa (N := N)) (fun _ _ => True).
Proof.
  intros N. split; apply column_wise_by.
  - intros. apply init_emp.
  - intros. now apply up_emp.
  - intros Pm p q s d d' Hp Hq Hs _ Hd. eapply dr_M; [| | |eassumption]; assumption.
  - intros. apply init_ewa.
  - intros. now apply up_ewa.
  - intros Pm p q s d d' Hp Hq Hs _ Hd. eapply dr_M; [| | |eassumption]; assumption.
Qed.
(** any different columns in any order (twice the same column would be two independent variables to DiagonalCovariance and, before the first row,
    to DCCCovariance) *)
Theorem C21_columns_bitwise_distinct : forall N : Num,
  column_wise (Diagonal (N := N)) (fun q s => forall i j, i < q -> j < q -> s i = s j -> i = j) /\
  column_wise (DCC (N := N)) (fun q s => forall i j, i < q -> j < q -> s i = s j -> i = j).
Proof.
  intros N. split; apply column_wise_by.
  - intros. apply init_diag.
  - intros. now apply up_diag.
  - intros Pm p q s d d' Hp Hq Hs Hok Hd. unfold diag_cov. eapply rr_bind; [exact (dr_V p q s "var" d d' Hd)|]. intros v v' Hv. cbn [rr]. now apply mr_mdiag.
  - intros. now apply init_dcc.
  - intros. now apply up_dcc.
  - intros. now apply cov_dcc.
Qed.
(** The shrinkage and Schur estimators that build on the exponentially weighted state: location_ (their covariance_ pools over all columns). *)
Theorem C21_location_bitwise : forall (N : Num) (L : LinAlg N),
  location_wise (OAS (N := N)) /\ location_wise (Shrunk (N := N)) /\ location_wise (Schur L) /\ location_wise (SchurCond L).
Proof.
  intros N L. split; [|split; [|split]]; apply location_wise_by; intros; now (apply init_ewa || apply up_ewa).
Qed.
(** ** The hypotheses are met: columns 2 and 0 of three, in float64 arithmetic *)
Example C21_columns_met : let s := fun i => match i with 0 => 2 | _ => 0 end in
  (forall i, i < 2 -> s i < 3) /\ (forall i j, i < 2 -> j < 2 -> s i = s j -> i = j) /\
  columns (N := NumF) 2 s [nlit 1 0; nlit 2 0; nlit 3 0] = [nlit 3 0; nlit 1 0] /\
  snd (partial_fit (new (C := DCC (N := NumF)) (mkDccP (nlit 5 1) None false)) (In2 [[nlit 1 0; nlit 2 0; nlit 3 0]; [nlit 4 0; nlit 1 0; nlit 7 0]])) = Ok tt.
Proof.
  split; [intros [|[|i]]; lia|]. split; [intros [|[|i]] [|[|j]]; lia|]. split; [reflexivity|]. vm_compute. reflexivity.
Qed.

(** * C99: what the keyed adapters read out, and bulk learning

    Law-free: any scalar type, any wrapped class, any LAPACK. *)
From Coq Require Import ZArith Bool String List Lia Arith.
From Verif Require Import Num Numpy PyVal LinalgModel StateModel BaseModel Estimators RegistryModel KeyedModel
  Spec KeyedSpec ListLemmas BaseProofs Shapes ClassShapes KeyedProofs Props_Keyed.
Import ListNotations.
Local Open Scope string_scope.
Local Open Scope list_scope.

(** [d[a][b]] *)
Definition entry {N : Num} (d : list (string * list (string * N))) (a b : string) : option N :=
  match dget a d with Some row => dget b row | None => None end.
(** the last position of a name *)
Definition last_at (ks : list string) (k : string) (i : nat) : Prop :=
  nth_error ks i = Some k /\ forall i', (i < i')%nat -> nth_error ks i' <> Some k.

Lemma dget_put {A} k k' (v : A) d : dget k (dict_put k' v d) = if String.eqb k k' then Some v else dget k d.
Proof.
  induction d as [|[q w] d IH]; cbn [dict_put dget].
  - destruct (String.eqb_spec k k'); reflexivity.
  - destruct (String.eqb_spec k' q) as [->|Hq]; cbn [dget]; destruct (String.eqb_spec k q) as [->|Hk]; auto.
    destruct (String.eqb_spec q k'); [congruence|reflexivity].
Qed.
Lemma keys_put {A} k (v : A) d : map fst (dict_put k v d) = if existsb (String.eqb k) (map fst d) then map fst d else map fst d ++ [k].
Proof.
  induction d as [|[q w] d IH]; cbn [dict_put map fst existsb]; [reflexivity|]. destruct (String.eqb_spec k q) as [->|H]; cbn [map fst orb]; [reflexivity|]. rewrite IH.
  destruct (existsb _ _); reflexivity.
Qed.
Definition put_all {A} (f : nat -> A) (ks : list string) (s : nat) (d : list (string * A)) : list (string * A) :=
  fold_left (fun d p => dict_put (snd p) (f (fst p)) d) (combine (seq s (length ks)) ks) d.
Lemma put_all_S {A} (f : nat -> A) k ks s d : put_all f (k :: ks) s d = put_all f ks (S s) (dict_put k (f s) d).
Proof. reflexivity. Qed.
Lemma put_all_none {A} (f : nat -> A) ks : forall s d k, ~ In k ks -> dget k (put_all f ks s d) = dget k d.
Proof.
  induction ks as [|q ks IH]; intros s d k H; [reflexivity|]. rewrite put_all_S, IH by (intros X; apply H; now right). rewrite dget_put.
  destruct (String.eqb_spec k q) as [->|]; [exfalso; apply H; now left|reflexivity].
Qed.
Lemma put_all_last {A} (f : nat -> A) ks : forall s d k i, last_at ks k i -> dget k (put_all f ks s d) = Some (f (s + i)%nat).
Proof.
  induction ks as [|q ks IH]; intros s d k i [H1 H2]; [destruct i; discriminate|]. rewrite put_all_S. destruct i as [|i].
  - injection H1 as ->. rewrite put_all_none. { rewrite dget_put, String.eqb_refl. f_equal. f_equal. lia. }
    intros X. apply In_nth_error in X. destruct X as [i' X]. apply (H2 (S i')); [lia|exact X].
  - replace (s + S i)%nat with (S s + i)%nat by lia. apply IH. split; [exact H1|]. intros i' Hi'. apply (H2 (S i')). lia.
Qed.
Lemma put_all_keys {A} (f : nat -> A) ks : forall s d, NoDup ks -> (forall k, In k ks -> ~ In k (map fst d)) -> map fst (put_all f ks s d) = map fst d ++ ks.
Proof.
  induction ks as [|q ks IH]; intros s d ND DJ; [now rewrite app_nil_r|]. inversion ND as [|? ? NI ND']; subst. rewrite put_all_S.
  assert (K : map fst (dict_put q (f s) d) = map fst d ++ [q]).
  { rewrite keys_put. destruct (existsb (String.eqb q) (map fst d)) eqn:E; [|reflexivity]. exfalso. apply existsb_exists in E as (x & Hx & Ex). apply String.eqb_eq in Ex. subst x. exact (DJ q (or_introl eq_refl) Hx). }
  rewrite IH; auto; rewrite K; [now rewrite <- app_assoc|]. intros k Hk X. apply in_app_or in X as [X|[->|[]]]; [exact (DJ k (or_intror Hk) X)|contradiction].
Qed.
Lemma as_dict_put {N : Num} (m : mat N) ks : as_dict_of_dicts m ks = put_all (fun i => put_all (fun j => mget m i j) ks 0 []) ks 0 [].
Proof. reflexivity. Qed.

(** ** The dictionary of dictionaries *)
(** [_as_dict_of_dicts(M, keys)[a][b]] is the entry of M at the last positions of the two names; other names are missing; and for
    distinct names the dictionary lists them in order, each with all of them in order. *)
Theorem C99_dict_of_dicts (N : Num) (M : mat N) ks :
  (forall a b i j, last_at ks a i -> last_at ks b j -> entry (as_dict_of_dicts M ks) a b = Some (mget M i j)) /\
  (forall a b, ~ (In a ks /\ In b ks) -> entry (as_dict_of_dicts M ks) a b = None) /\
  (NoDup ks -> map fst (as_dict_of_dicts M ks) = ks /\ forall a row, dget a (as_dict_of_dicts M ks) = Some row -> map fst row = ks).
Proof.
  assert (R : forall f : nat -> list (string * N), forall k, ~ In k ks -> dget k (put_all f ks 0 []) = None) by (intros f k H; now rewrite put_all_none).
  assert (LA : forall k, In k ks -> exists i, last_at ks k i).
  { clear. induction ks as [|q ks IH]; intros k H; [destruct H|]. destruct (in_dec string_dec k ks) as [I|NI].
    - destruct (IH k I) as (i & H1 & H2). exists (S i). split; [exact H1|]. intros [|i'] Hi'; [lia|]. apply H2. lia.
    - destruct H as [->|H]; [|contradiction]. exists 0%nat. split; [reflexivity|]. intros [|i'] Hi' X; [lia|]. apply NI. eapply nth_error_In. exact X. }
  rewrite as_dict_put. split; [|split].
  - intros a b i j Ha Hb. unfold entry. rewrite (put_all_last _ ks 0 [] a i Ha). cbn [Nat.add]. now rewrite (put_all_last _ ks 0 [] b j Hb).
  - intros a b H. unfold entry. destruct (in_dec string_dec a ks) as [Ia|Na].
    + destruct (LA a Ia) as (i & Hi). rewrite (put_all_last _ ks 0 [] a i Hi). rewrite put_all_none; [reflexivity|]. intros Ib. apply H. auto.
    + now rewrite R.
  - intros ND. split; [now rewrite put_all_keys|]. intros a row E. destruct (in_dec string_dec a ks) as [Ia|Na].
    + destruct (LA a Ia) as (i & Hi). rewrite (put_all_last _ ks 0 [] a i Hi) in E. injection E as <-. now rewrite put_all_keys.
    + rewrite R in E by auto. discriminate.
Qed.

(** ** covariance_, get_cov *)
(** [covariance_] (and [covariance]) is [cov_array()] under the names; [get_cov(keys)] is its matrix; both fail exactly as it does. *)
Theorem C99_covariance_reads (N : Num) (L : LinAlg N) fuel (C : EstClass N) (a : adapter C) :
  (forall keys, get_cov L fuel a keys = (r <- cov_array L fuel a keys ;; Ok (fst r))) /\
  (forall e, cov_array L fuel a None = Err e -> keyed_covariance_ L fuel a = Err e /\ keyed_correlation_ L fuel a = Err e) /\
  (forall M ks, cov_array L fuel a None = Ok (M, ks) -> exists d, keyed_covariance_ L fuel a = Ok d /\
     (forall x y i j, last_at ks x i -> last_at ks y j -> entry d x y = Some (mget M i j)) /\
     (forall x y, ~ (In x ks /\ In y ks) -> entry d x y = None) /\ (NoDup ks -> map fst d = ks)).
Proof.
  split; [reflexivity|]. split.
  - intros e E. unfold keyed_covariance_, keyed_correlation_. now rewrite E.
  - intros M ks E. unfold keyed_covariance_. rewrite E. cbn [bind fst snd]. eexists. split; [reflexivity|]. destruct (C99_dict_of_dicts N M ks) as (H1 & H2 & H3). split; [exact H1|]. split; [exact H2|]. intros ND. apply (H3 ND).
Qed.
(** For a FixedUniverse of distinct names [covariance_[a][b]] is the wrapped estimator's [covariance_] at the positions of the names. *)
Theorem C99_fixed_covariance (N : Num) (L : LinAlg N) fuel (C : EstClass N) (u : fixed C) ks o last cov :
  fx_keys u = Some ks -> fx_core u = Some (o, last) -> NoDup ks -> covariance_ o = Ok cov ->
  exists d, keyed_covariance_ L fuel (AFixed u) = Ok d /\ map fst d = ks /\
    forall i j a b, nth_error ks i = Some a -> nth_error ks j = Some b -> entry d a b = Some (mget cov i j).
Proof.
  intros Hk Hc ND Hcov. assert (E : cov_array L fuel (AFixed u) None = Ok (cov, ks)) by (unfold cov_array, fixed_cov_array; rewrite Hc, Hk, Hcov; reflexivity).
  destruct (C99_covariance_reads N L fuel C (AFixed u)) as (_ & _ & H). destruct (H cov ks E) as (d & E1 & E2 & _ & E4). exists d. split; [exact E1|]. split; [now apply E4|].
  assert (LA : forall k i, nth_error ks i = Some k -> last_at ks k i).
  { intros k i Hi. split; [exact Hi|]. intros i' Hlt X. pose proof (NoDup_nth_error' ks i i' k ND Hi X). lia. }
  intros i j a b Ha Hb. apply E2; now apply LA.
Qed.

(** ** get_corr, correlation_: the diagonal is exactly 1, whatever the covariance *)
Lemma fill_diag_get {N : Num} (m : mat N) (v : N) p i j : is_mat p p m -> (i < p)%nat -> (j < p)%nat -> mget (fill_diagonal m v) i j = if Nat.eqb i j then v else mget m i j.
Proof.
  intros [H1 H2] Hi Hj. unfold fill_diagonal, nrows, ncols. destruct m as [|r m]; [cbn in H1; lia|]. cbn [length hd] in *. rewrite Forall_forall in H2. rewrite (H2 r (or_introl eq_refl)), H1. unfold mget at 1, tab2. rewrite nth_tab by auto. now rewrite nth_tab.
Qed.
Theorem C99_unit_diagonal (N : Num) (L : LinAlg N) fuel (C : EstClass N) (a : adapter C) keys M p :
  get_cov L fuel a keys = Ok M -> (1 <= p)%nat -> is_mat p p M ->
  exists R R0, get_corr L fuel a keys = Ok R /\ is_mat p p R /\ cov_to_corrcoef M = Ok R0 /\
    (forall i, (i < p)%nat -> mget R i i = n1) /\ (forall i j, (i < p)%nat -> (j < p)%nat -> i <> j -> mget R i j = mget R0 i j) /\
    (keys = None -> forall ks, cov_array L fuel a None = Ok (M, ks) -> length ks = p ->
       exists d, keyed_correlation_ L fuel a = Ok d /\ forall x y i j, last_at ks x i -> last_at ks y j -> entry d x y = Some (mget R i j)).
Proof.
  intros EM Hp HM. pose proof (cov_to_corrcoef_sh (fun _ => False) p M HM Hp) as HR. destruct (cov_to_corrcoef M) as [R0|e] eqn:E0; [|destruct HR]. cbn [holds] in HR.
  unfold get_cov in EM. destruct (cov_array L fuel a keys) as [[M' q]|] eqn:EC; [|discriminate]. cbn [bind fst] in EM. injection EM as ->.
  exists (fill_diagonal R0 n1), R0. unfold get_corr. rewrite EC. cbn [bind fst]. rewrite E0. cbn [bind]. split; [reflexivity|].
  split. { destruct R0 as [|r R0']; [destruct HR as [X _]; cbn in X; lia|]. unfold fill_diagonal, nrows, ncols. destruct HR as [X Y]. rewrite Forall_forall in Y. cbn [hd]. rewrite X, (Y r (or_introl eq_refl)). apply is_mat_tab2. }
  split; [reflexivity|]. split; [|split].
  - intros i Hi. rewrite (fill_diag_get R0 n1 p) by auto. now rewrite Nat.eqb_refl.
  - intros i j Hi Hj Hne. rewrite (fill_diag_get R0 n1 p) by auto. destruct (Nat.eqb_spec i j); [contradiction|reflexivity].
  - intros -> ks EK _. rewrite EK in EC. injection EC as <-. unfold keyed_correlation_. rewrite EK. cbn [bind fst snd]. rewrite E0. cbn [bind]. eexists. split; [reflexivity|]. apply (C99_dict_of_dicts N (fill_diagonal R0 n1) ks).
Qed.

(** ** learn_many *)
(** Learning X then Y is learning X ++ Y; if learning stops, it is at the first observation that raises, with everything before it
    learnt and nothing after it. *)
Theorem C99_learn_many (N : Num) (C : EstClass N) (proto : inst C) :
  (forall (a : adapter C) X Y, learn_many proto a (X ++ Y) = match learn_many proto a X with (a', Ok _) => learn_many proto a' Y | (a', Err e) => (a', Err e) end) /\
  (forall a x, learn_many proto a [x] = match learn_one proto a x with (a', Ok _) => (a', Ok tt) | (a', Err e) => (a', Err e) end) /\
  (forall (a : adapter C) X a' e, learn_many proto a X = (a', Err e) -> exists X1 x X2 a1, X = X1 ++ x :: X2 /\ learn_many proto a X1 = (a1, Ok tt) /\ learn_one proto a1 x = (a', Err e)).
Proof.
  split; [|split].
  - intros a X Y. revert a. induction X as [|x X IH]; intros a; [reflexivity|]. cbn [app learn_many]. destruct (learn_one proto a x) as [a1 [[]|e]]; [apply IH|reflexivity].
  - intros a x. cbn [learn_many]. destruct (learn_one proto a x) as [a1 [[]|e]]; reflexivity.
  - intros a X. revert a. induction X as [|x X IH]; intros a a' e E; [discriminate|]. cbn [learn_many] in E. destruct (learn_one proto a x) as [a1 [[]|e1]] eqn:E1.
    + destruct (IH a1 a' e E) as (X1 & y & X2 & a2 & -> & E2 & E3). exists (x :: X1), y, X2, a2. split; [reflexivity|]. split; [|exact E3]. cbn [learn_many]. now rewrite E1.
    + injection E as <- <-. exists [], x, X, a. split; [reflexivity|]. split; [reflexivity|exact E1].
Qed.

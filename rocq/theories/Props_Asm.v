(** * Property C56: the matrix a DynamicUniverse assembles *)
From Coq Require Import ZArith Bool String List Lia Arith.
From Coq Require Reals.
From Verif Require Import Num Numpy PyVal LinalgModel StateModel BaseModel Estimators RegistryModel KeyedModel
  Spec KeyedSpec ListLemmas BaseProofs Shapes ClassShapes BlockShapes StreamProofs RegistryProofs KeyedProofs DynProofs DynProofs2 AsmProofs.
Import ListNotations.
Local Open Scope string_scope.
Local Open Scope list_scope.

(** Law-free: whatever the numbers, [know i j] is what the best holder of the i-th and j-th names
    says, the table is symmetric, everything unknown gets the off-diagonal mean, and the reported
    matrix is [nearest_pos_def(to_symmetric(...))] of it. *)
Theorem C56_assembled_matrix :
  forall (N : Num) (L : LinAlg N) fuel (C : EstClass N) (d : dynamic C) q,
    nisnan (nnan : N) = true -> readable d -> NoDup q ->
    exists know : nat -> nat -> option N,
      (forall i j ki kj, i <= j -> nth_error q i = Some ki -> nth_error q j = Some kj ->
         knows d ki kj (know i j) /\ know j i = know i j) /\
      let n := length q in
      let M := tab2 n n (fun a b => match know a b with Some v => v | None => off_diagonal_mean n know end) in
      dynamic_cov_array L fuel d (Some q) =
        (S <- to_symmetric M ;; P <- nearest_pos_def L fuel S ;; Ok (P, q)).
Proof.
  intros N L fuel C d q Hnan HR HN. destruct (table_exists d q HR HN) as (W & HW). exists (clean W). split.
  - intros i j ki kj Hij Hi Hj. destruct (HW i j ki kj Hij Hi Hj) as [Hw Hs]. unfold clean. rewrite Hs. split; [|reflexivity].
    destruct Hw as [[Hh ->]|(u & B & R)].
    + left. rewrite Hnan. auto.
    + right. exists u, (W i j). auto.
  - cbv zeta. unfold dynamic_cov_array. cbn [resolve_keys bind]. rewrite (assemble_ok d q W HR HN HW). reflexivity.
Qed.

(** What is known of a pair is unique: the best holder and its reading are determined. *)
Theorem C56_known_is_determined :
  forall (N : Num) (C : EstClass N) (d : dynamic C) ka kb r r',
    readable d -> knows d ka kb r -> knows d ka kb r' -> r = r'.
Proof.
  intros N C d ka kb r r' HR [[H1 ->]|(u & v & B & R & ->)] [[H2 ->]|(u' & v' & B' & R' & ->)]; auto.
  - exfalso. rewrite H1 in B'. destruct B' as ([|? ?] & l2 & E & _); discriminate.
  - exfalso. rewrite H2 in B. destruct B as ([|? ?] & l2 & E & _); discriminate.
  - rewrite (written_unique d ka kb v v' HR); [reflexivity|right; eauto|right; eauto].
Qed.

(** No argument means the names of the last observation; before any observation that raises. *)
Theorem C56_default_keys :
  forall (N : Num) (L : LinAlg N) fuel (C : EstClass N) (proto : inst C) d x,
    dynamic_cov_array L fuel (fst (dynamic_update proto d x)) None =
    dynamic_cov_array L fuel (fst (dynamic_update proto d x)) (Some (obs_keys x)).
Proof.
  intros N L fuel C proto d x. assert (E : dy_x (fst (dynamic_update proto d x)) = Some x).
  { unfold dynamic_update. destruct (dyn_loop x (dy_states d)) as [sts1 [[]|e]]; [|reflexivity].
    destruct (existsb _ _); [reflexivity|]. destruct (universe_update _ x) as [fr [[]|e]]; reflexivity. }
  unfold dynamic_cov_array, resolve_keys. now rewrite E.
Qed.
Theorem C56_nothing_to_read_before_data :
  forall (N : Num) (L : LinAlg N) fuel (C : EstClass N) f extra mu ms (d : dynamic C),
    dynamic_new f extra mu ms = Ok d -> dynamic_cov_array L fuel d None = Err ValueError.
Proof. intros N L fuel C f extra mu ms d E. destruct (dynamic_new_inv _ _ _ _ _ E) as [_ ->]. reflexivity. Qed.

(** Registered classes: after a history of dicts that did not raise, the adapter is readable as soon
    as the individual estimators are. *)
Theorem C56_readable_for_registered_classes :
  forall (N : Num) (L : LinAlg N), la_shapes L -> forall fuel k, In k (registry L fuel) ->
  forall fac extra mu ms d0 (proto : inst (rg_class k)) h d rs,
    dynamic_new fac extra mu ms = Ok d0 -> Forall is_dict h -> run_dynamic proto d0 h = (d, rs) -> no_raise rs ->
    (forall i u, In (i, u) (dy_states d) -> u_keys u <> [] -> exists n, n_samples_ (u_est u) = Ok n /\
       (1 <= n -> exists cov, covariance_ (u_est u) = Ok cov)) ->
    readable d.
Proof.
  intros N L HL fuel k Hk fac extra mu ms d0 proto h d rs E0 Hd Hrun Hq Hc.
  destruct (dynamic_new_inv _ _ _ _ _ E0) as [I0 ->].
  pose proof (faithful_run proto (mkDyn fac mu ms [] None 0) h I0 eq_refl) as F. unfold after in F. rewrite Hrun in F. specialize (F Hq).
  apply Forall_forall. intros [i u] Hin. cbn [snd]. intros Hne. specialize (Hc i u Hin Hne).
  destruct (F i u Hin) as (h1 & x0 & h2 & -> & Ku & _ & M). cbv zeta in M. destruct M as (M1 & M2 & M3 & M4).
  assert (Dx : is_dict x0) by (apply Forall_app in Hd; destruct Hd as [_ Hd]; now inversion Hd).
  split; [rewrite Ku; exact Dx|].
  destruct (registry_behaved L HL fuel k Hk) as (wf & R & HB).
  set (p := length (u_keys u)). assert (Hp : 1 <= p) by (unfold p; destruct (u_keys u); [congruence|simpl; lia]).
  assert (G : good wf p (u_est u)).
  { rewrite M1. apply (run_good wf R HB p); auto.
    - unfold make. destruct fac; apply new_good.
    - apply Forall_forall. intros c Hcc. unfold feed in Hcc. rewrite map_map in Hcc. apply in_map_iff in Hcc.
      destruct Hcc as (x & <- & _). simpl. constructor; [apply map_length|constructor]. }
  destruct (i_state (u_est u)) as [s|] eqn:Es.
  - destruct G as [G _]. destruct (G s Es) as [Gs Gn]. 
    destruct Hc as (n & En & Hc).
    exists n. split; [exact En|]. intros H1. destruct (Hc H1) as (cov & Ec). exists cov. split; [exact Ec|].
    unfold covariance_, fitted_state in Ec. rewrite Es in Ec.
    destruct (get_or 0%nat (c_nsamples (rg_class k) s)); [|discriminate]. cbn [bind] in Ec. destruct (Nat.ltb a 1); [discriminate|].
    cbn [bind] in Ec. pose proof (bh_cov _ _ _ HB (i_params (u_est u)) p s Hp Gs) as Hs.
    destruct (c_cov (rg_class k) (i_params (u_est u)) s) as [c|]; [|discriminate]. cbn [bind] in Ec.
    pose proof (to_symmetric_sh (fun _ => True) p c Hs Hp) as T. rewrite Ec in T. exact T.
  - exists 0. split; [unfold n_samples_; now rewrite Es|lia].
Qed.

(** A name listed twice in the query: only its last position is filled, the other one is treated as
    never observed -- here its variance is reported as 0 (before projection). *)
Theorem C56_duplicate_query_names :
  forall (N : Num) (L : LinAlg N) fuel (C : EstClass N) (d : dynamic C) k v,
    nisnan (nnan : N) = true -> nisnan v = false -> readable d -> knows d k k (Some v) ->
    dynamic_cov_array L fuel d (Some [k; k]) =
      (S <- to_symmetric [[n0; n0]; [n0; v]] ;; P <- nearest_pos_def L fuel S ;; Ok (P, [k; k])).
Proof.
  intros N L fuel C d k v Hnan Hv HR HK. unfold dynamic_cov_array. cbn [resolve_keys bind]. unfold assemble.
  assert (P : forall f, (f 0 0 = nnan) -> (f 0 1 = nnan) -> (f 1 0 = nnan) -> (f 1 1 = nnan \/ f 1 1 = v) ->
     exists v', nisnan v' = false /\ pair_step (dy_states d) [k; k] (tab2 2 2 f) k k = Ok [[nnan; nnan]; [nnan; v']] /\ v' = v).
  { intros f F00 F01 F10 F11. exists v. split; [exact Hv|]. split; [|reflexivity]. unfold pair_step. rewrite candidates_holders by exact HR.
    cbn [bind]. fold (holders d k k). destruct HK as [[_ H]|(u & w & B & R & E)]; [discriminate|].
    destruct (nisnan w) eqn:Ew; [discriminate|]. injection E as <-.
    destruct (holders d k k) as [|u0 rest] eqn:Eh; [destruct B as ([|? ?] & l2 & E & _); discriminate|].
    pose proof (is_best_unique _ _ _ (best_of_is_best u0 rest) B) as Eu. rewrite Eu.
    assert (Hin : In u (holders d k k)) by (rewrite Eh; destruct B as (l1 & l2 & -> & _); apply in_or_app; right; now left).
    unfold holders in Hin. apply filter_In in Hin. destruct Hin as [Hin Hc]. apply andb_true_iff in Hc. destruct Hc as [_ Hd].
    destruct R as (cov & i & j & Ec & Hi & Hj & Ev).
    unfold has_data in Hd. unfold running_cov. destruct (n_samples_ (u_est u)) as [m|]; [|discriminate]. cbn [bind]. rewrite Hd, Ec. cbn [bind].
    assert (R1 : readable1 u).
    { apply in_map_iff in Hin. destruct Hin as (kv & <- & Hkv). unfold readable in HR. rewrite Forall_forall in HR. exact (HR kv Hkv). }
    destruct R1 as (ND & m' & Em & Hm). { intros E. rewrite E in Hi. destruct i; discriminate. }
    assert (Hl : length cov = length (u_keys u) /\ Forall (fun row => length row = length (u_keys u)) cov).
    { apply in_map_iff in Hin. destruct Hin as (kv & <- & Hkv). destruct m' as [|m'].
      - exfalso. unfold covariance_, fitted_state, n_samples_ in *. destruct (i_state (u_est (snd kv))) as [s|]; [|discriminate].
        rewrite Em in Ec. discriminate.
      - destruct (Hm ltac:(lia)) as (c' & Ec' & Hl). rewrite Ec in Ec'. injection Ec' as <-. exact Hl. }
    rewrite (index_of_nodup k (u_keys u) i ND Hi). cbn [bind].
    rewrite (NoDup_nth_error' _ _ _ _ ND Hj Hi) in Ev.
    assert (La : i < length cov) by (destruct Hl as [-> _]; apply nth_error_Some; congruence).
    assert (At : at2 cov i i = Ok (mget cov i i)).
    { unfold at2, mget. rewrite (nth_error_nth' cov [] La). rewrite (nth_error_nth' (nth i cov []) n0); [reflexivity|].
      destruct Hl as [Hl Hr]. rewrite Forall_forall in Hr. rewrite Hr by (now apply nth_In). rewrite <- Hl. exact La. }
    rewrite At. cbn [bind last_index]. rewrite String.eqb_refl. cbn [bind]. rewrite <- Ev.
    rewrite !mset_tab2 by lia. unfold tab2, tab. cbn [seq map Nat.eqb andb]. now rewrite F00, F01, F10. }
  unfold pairs_loop, row_loop.
  destruct (P (fun _ _ => nnan) eq_refl eq_refl eq_refl (or_introl eq_refl)) as (v1 & _ & E1 & ->). cbn [length]. rewrite E1. cbn [bind].
  set (g := fun a b : nat => if Nat.eqb a 1 && Nat.eqb b 1 then v else nnan).
  assert (T : [[nnan; nnan]; [nnan; v]] = tab2 2 2 g) by reflexivity.
  rewrite T. destruct (P g eq_refl eq_refl eq_refl (or_intror eq_refl)) as (v2 & _ & E2 & ->). rewrite E2. cbn [bind].
  rewrite T, E2. cbn [bind]. unfold fill_value, off_diag, tab. cbn [seq map Nat.eqb concat app mget nth filter]. unfold mget. cbn [nth].
  rewrite Hnan. cbn [negb]. unfold mmap. cbn [map]. rewrite Hnan, Hv. reflexivity.
Qed.

(** Non-vacuity: after {A,B},{B,C} the pair (A,C) was never seen together and the query {A,B,C} is
    readable; A,B is read from universe 0, B (in both, equally long lived) from the fresher one. *)
Example C56_example : forall (N : Num) (a b c : N),
  let fac := ByClass (C := Empirical (N := N)) (mkEmpP false) in
  let proto := new (C := Empirical (N := N)) (mkEmpP false) in
  let d := fst (run_dynamic proto (mkDyn fac 10 50 [] None 0) [[("A", a); ("B", b)]; [("B", b); ("C", c)]]) in
  readable d /\ NoDup ["A"; "B"; "C"] /\ holders d "A" "C" = [] /\
  map u_keys (holders d "A" "B") = [["A"; "B"]] /\ map u_keys (holders d "B" "B") = [["A"; "B"]; ["B"; "C"]] /\
  exists u, is_best u (holders d "B" "B") /\ u_keys u = ["B"; "C"].
Proof.
  intros. split.
  - apply Forall_cons; [|apply Forall_cons; [|apply Forall_nil]]; intros u Hu; subst u; (split; [repeat constructor; simpl; intuition discriminate|]);
      (exists 1; split; [reflexivity|]; intros _; eexists; split; [reflexivity|]; split; [reflexivity|repeat constructor]).
  - split; [repeat constructor; simpl; intuition discriminate|]. split; [reflexivity|]. split; [reflexivity|]. split; [reflexivity|].
    eexists. split.
    + eexists [_], []. split; [reflexivity|]. split; [|constructor]. constructor; [|constructor]. right. split; [reflexivity|]. simpl. lia.
    + reflexivity.
Qed.

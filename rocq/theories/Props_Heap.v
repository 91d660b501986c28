(** * C12, C13: arrays shared between an estimator and its caller *)
From Coq Require Import Reals ZArith Bool String List Lia Lra Arith.
From Verif Require Import Num Numpy PyVal LinalgModel StateModel BaseModel Estimators RegistryModel HeapModel HeapSpec HeapProofs ListLemmas BaseProofs RMat Fin RealSpec RunFin EwaReal EmpFacts Props_Emp.
Import ListNotations.
Local Open Scope string_scope.

Section Gen.
  Context {N : Num} (L : LinAlg N).

  (** ** Which classes *)
  (** The 16 registered classes other than BlockCovariance keep their mean array in the state dict and return it from
      [location_]; BlockCovariance builds a new array. *)
Theorem C12_classes fuel (r : Registered N) : In r (all_estimators L fuel) ->
    (exists name P diff init update cov, rg_class r = dict_class name P diff init update cov) \/ rg_class r = Block L.
  Proof.
    cbn. intros H. repeat (destruct H as [<-|H]; [first [right; reflexivity|left; do 6 eexists; reflexivity]|]). contradiction.
  Qed.
  Lemma put_same (s : dict N) m : getV "mean" s = Ok m -> put_mean s m = s.
  Proof.
    unfold getV. induction s as [|[k x] s IH]; [discriminate|]. cbn [dget put_mean]. destruct (String.eqb "mean" k).
    - destruct x as [| |[v| |]]; try discriminate. now intros [= ->].
    - intros H. f_equal. now apply IH.
  Qed.
  Lemma put_get (s : dict N) m v : getV "mean" s = Ok m -> getV "mean" (put_mean s v) = Ok v.
  Proof.
    unfold getV. induction s as [|[k x] s IH]; [discriminate|]. cbn [dget put_mean]. destruct (String.eqb "mean" k) eqn:E; cbn [dget]; rewrite E; auto.
  Qed.
  Lemma put_other (s : dict N) k v : k <> "mean" -> dget k (put_mean s v) = dget k s.
  Proof.
    intros H. induction s as [|[k' x] s IH]; [reflexivity|]. cbn [put_mean]. destruct (String.eqb_spec "mean" k') as [<-|E]; cbn [dget].
    - destruct (String.eqb_spec k "mean"); [contradiction|reflexivity].
    - destruct (String.eqb k k'); [reflexivity|exact IH].
  Qed.
  Section Dict.
    Context (name : string) (P : Type) (diff : P -> bool) (init : P -> nat -> res (dict N)) (update : P -> dict N -> vec N -> res (dict N)) (cov : P -> dict N -> res (mat N)).
    Definition DC : EstClass N := dict_class name P diff init update cov.
    (** the estimator of the model in which arrays are shared, and of the one in which they are values *)
    Definition shared_run (p : P) (prog : list (@cmd N)) := exec L DC (Some put_mean) (start DC p) prog.
    Definition value_run (p : P) (prog : list (@cmd N)) := vexec L DC (vstart DC p) prog.
    Lemma dict_put_ok : put_ok DC (Some put_mean).
    Proof. intros f p s m [= <-] H. now apply put_same. Qed.

    (** ** C12, C13: sharing is invisible to a caller who writes only into arrays it is allowed to write into *)
Theorem C12_polite_programs p prog : polite true (diff p) [] prog -> snd (shared_run p prog) = snd (value_run p prog).
    Proof. intros H. apply (exec_ok L DC (Some put_mean) dict_put_ok prog [] _ _ (start_sim DC (Some put_mean) p)). exact H. Qed.
    (** In particular: with diff=False, any writes at all into arrays passed to [partial_fit]/[fit], and into arrays
        returned by [covariance_], [correlation_], [precision_], as long as [location_] is not read. *)
    Definition no_location (prog : list (@cmd N)) : Prop := Forall (fun c => c <> Location) prog.
    Definition only_lists (prog : list (@cmd N)) : Prop := Forall (fun c => forall h, c <> PartialFitArr h /\ c <> FitArr h) prog.
    Lemma free_polite sh df prog : no_location prog -> (df = true -> only_lists prog) -> forall fz, Forall (fun b => b = false) fz -> polite sh df fz prog.
    Proof.
      induction prog as [|c prog IH]; intros H1 H2 fz HF; [exact I|]. inversion H1; subst.
      assert (H2' : df = true -> only_lists prog) by (intros D; specialize (H2 D); now inversion H2).
      assert (SN : Forall (fun b => b = false) (fz ++ [false])) by (apply Forall_app; auto).
      destruct c; cbn [polite]; auto; try congruence.
      - split; [|now apply IH]. rewrite Forall_forall in HF. destruct (le_lt_dec (length fz) h); [now apply nth_overflow|apply HF; now apply nth_In].
      - destruct df; [|now apply IH]. specialize (H2 eq_refl). inversion H2 as [|? ? K]; subst. now destruct (K h).
      - destruct df; [|now apply IH]. specialize (H2 eq_refl). inversion H2 as [|? ? K]; subst. now destruct (K h).
    Qed.
Theorem C12_any_writes p prog : diff p = false -> no_location prog -> snd (shared_run p prog) = snd (value_run p prog).
    Proof. intros HD H. apply C12_polite_programs. apply free_polite; auto. congruence. Qed.
    (** With diff=True the same holds when the data are passed as lists, which are copied. *)
Theorem C12_lists_are_copied p prog : only_lists prog -> no_location prog -> snd (shared_run p prog) = snd (value_run p prog).
    Proof. intros HD H. apply C12_polite_programs. apply free_polite; auto. Qed.

    (** ** C13, the other side: the array returned by [location_] is the estimator's own *)
    Lemma reads_ns (s : dict N) v : dict_nsamples (put_mean s v) = dict_nsamples s.
    Proof. unfold dict_nsamples, getI. rewrite put_other by discriminate. reflexivity. Qed.
Theorem C13_location_is_shared p prog m v : polite true (diff p) [] prog ->
      let w := fst (shared_run p prog) in
      snd (step L DC (Some put_mean) w Location) = Ok (Some (A1 m)) -> length v = length m ->
      let w' := fst (exec L DC (Some put_mean) w [Location; Write (length (w_held DC w)) (A1 v)]) in
      exists s, i_state (contents DC (Some put_mean) (w_heap DC w) (w_est DC w)) = Some s /\
        i_state (contents DC (Some put_mean) (w_heap DC w') (w_est DC w')) = Some (put_mean s v) /\
        snd (step L DC (Some put_mean) w' Location) = Ok (Some (A1 v)).
    Proof.
      intros HPol w HL HV w'.
      destruct (exec_sim L DC (Some put_mean) dict_put_ok prog [] _ _ (start_sim DC (Some put_mean) p) HPol) as (_ & (fz & S) & _).
      fold (shared_run p prog) in S. fold w in S. pose proof (s_est _ _ _ _ _ S) as E.
      pose proof (est_contents _ _ dict_put_ok _ _ _ E) as EC. subst w'. cbn [exec step] in *. unfold h_location in *. rewrite EC in *.
      destruct (location_ (v_est DC (fst (vexec L DC (vstart DC p) prog)))) as [m0|e] eqn:EL; [|discriminate].
      unfold location_, fitted_state in EL. destruct (i_state (v_est DC (fst (vexec L DC (vstart DC p) prog)))) as [s|] eqn:ES; [|discriminate].
      destruct (get_or 0 (c_nsamples DC s)) as [n|] eqn:EN; [|discriminate]. cbn [bind] in EL. destruct (Nat.ltb n 1) eqn:E1; [discriminate|]. cbn [bind] in EL.
      destruct E as (E0 & E2 & E3 & E4 & E5). unfold mean_ok in E4. rewrite E0, E2, ES in E4. rewrite EL in E4. destruct E4 as (a & EM & EA).
      rewrite EM in *. cbn [got snd fst] in *. rewrite EA in HL. injection HL as ->. rewrite EA. exists s. split; [reflexivity|].
      unfold held. cbn [w_held w_heap w_est]. rewrite nth_snoc, EA. cbn [same_shape]. rewrite (proj2 (Nat.eqb_eq (length m) (length v))) by auto. cbn [fst snd w_heap w_est].
      assert (LA : (a < length (w_heap DC w))%nat) by (apply nth_error_Some; congruence).
      assert (CT : i_state (contents DC (Some put_mean) (upd (w_heap DC w) a (A1 v)) (w_est DC w)) = Some (put_mean s v)).
      { unfold contents. cbn [i_state]. rewrite E2, ES, EM. rewrite upd_same by auto. reflexivity. }
      split; [exact CT|]. unfold location_, fitted_state. rewrite CT. change (c_nsamples DC (put_mean s v)) with (dict_nsamples (put_mean s v)). rewrite reads_ns. change (dict_nsamples s) with (c_nsamples DC s). rewrite EN. cbn [bind]. rewrite E1. cbn [bind].
      change (c_mean DC (i_params (contents DC (Some put_mean) (upd (w_heap DC w) a (A1 v)) (w_est DC w))) (put_mean s v)) with (getV "mean" (put_mean s v)).
      rewrite (put_get s m v EL). rewrite EM. cbn [got snd]. rewrite upd_same by auto. reflexivity.
    Qed.
  End Dict.

  (** BlockCovariance returns a new array from [location_]: it may be written into. *)
Theorem C13_block_location_is_a_copy (p : BlkP) prog : polite false (blk_diff p) [] prog ->
    snd (exec L (Block L) None (start (Block L) p) prog) = snd (vexec L (Block L) (vstart (Block L) p) prog).
  Proof. intros H. apply (exec_ok L (Block L) None ltac:(intros f ? ? ? [=]) prog [] _ _ (start_sim (Block L) None p)). exact H. Qed.
End Gen.

(** ** C12, the other side: diff=True keeps a reference to the caller's row *)
Local Open Scope R_scope.
Section Reuse.
  Context (L : LinAlg NumX) (name : string) (P : Type) (diff : P -> bool) (init : P -> nat -> res (dict NumX))
    (update : P -> dict NumX -> vec NumX -> res (dict NumX)) (cov : P -> dict NumX -> res (mat NumX)) (p : P) (HD : diff p = true) (n : nat).
  Notation C := (DC name P diff init update cov).
  Notation put := (Some (put_mean (N := NumX))).
  (** One buffer, overwritten in place with each new observation and passed again: [buf[:] = x; est.partial_fit(buf)]. *)
  Definition refill (xs : list obs) : list (@cmd NumX) := flat_map (fun x => [Write 0%nat (A1 (fv n x)); PartialFitArr 0%nat]) xs.
  Definition one_buffer (x0 : obs) (xs : list obs) : list (@cmd NumX) := Alloc (A1 (fv n x0)) :: PartialFitArr 0%nat :: refill xs.
  Definition zero_row : input NumX := In1 (fv n (fun _ => 0)).
  Definition bump (v : inst C) (x : vec NumX) : inst C := mkInst (i_params v) (i_state v) (i_nfeat v) (Some x).
  Record J (x : obs) (w : world C) (v : inst C) : Prop := mkJ {
    j_held : w_held C w = [Some 0%nat];
    j_cell : nth_error (w_heap C w) 0%nat = Some (A1 (fv n x));
    j_est : Est C put (w_heap C w) (w_est C w) (bump v (fv n x));
    j_prev : h_prev C (w_est C w) = Some (View 0%nat 0%nat);
    j_mean : h_mean C (w_est C w) <> Some 0%nat;
    j_vprev : i_prev v = Some (fv n (fun _ => 0));
    j_diff : i_params v = p }.
  Lemma absorb_bump v d (x : vec NumX) : absorb (bump v x) d = (bump (fst (absorb v d)) x, snd (absorb v d)).
  Proof.
    unfold absorb, bump. cbn [i_state i_params i_nfeat i_prev]. destruct (i_state v) as [s|] eqn:ES.
    - destruct (c_update _ _ _ _); cbn [fst snd]; rewrite ?ES; reflexivity.
    - destruct (c_init _ _ _); [|reflexivity]. destruct (c_update _ _ _ _); reflexivity.
  Qed.
  Lemma reuse_step x y w v : J x w v ->
    J y (fst (step L C put (fst (step L C put w (Write 0%nat (A1 (fv n y))))) (PartialFitArr 0%nat))) (fst (partial_fit v zero_row)).
  Proof.
    intros Jw. destruct w as [hp hd o]. pose proof (j_held _ _ _ Jw) as K1. pose proof (j_cell _ _ _ Jw) as K2. pose proof (j_est _ _ _ Jw) as K3.
    pose proof (j_prev _ _ _ Jw) as K4. pose proof (j_mean _ _ _ Jw) as K5. pose proof (j_vprev _ _ _ Jw) as K6. pose proof (j_diff _ _ _ Jw) as K7. cbn [w_held w_heap w_est] in *. subst hd.
    destruct hp as [|c0 hp]; [discriminate|]. cbn in K2. injection K2 as ->.
    cbn [step held nth_error w_held w_heap w_est]. unfold held. cbn [nth_error w_held same_shape]. rewrite !fv_length, Nat.eqb_refl. cbn [fst upd w_heap w_held w_est nth_error].
    unfold h_partial_fit. cbn [h_as_rows nth_error h_fit_rows].
    assert (E' : Est C put (A1 (fv n y) :: hp) o (bump v (fv n y))).
    { destruct K3 as (A1' & A2' & A3' & A4' & A5'). split; [auto|]. split; [auto|]. split; [auto|]. split.
      - unfold mean_ok in *. destruct (h_state C o); auto. destruct (c_mean _ _ _) as [m|]; auto. destruct A4' as (a & Q1 & Q2). exists a. split; auto. destruct a; [exfalso; apply K5; exact Q1|exact Q2].
      - rewrite K4 in *. cbn in *. split; [reflexivity|lia]. }
    pose proof E' as (B1 & _). cbn [bump i_params] in B1. unfold h_fit_row. rewrite B1, K7. change (c_diff C p) with (diff p). rewrite HD, K4. cbn [deref nth_error]. rewrite vsub_fin.
    pose proof (h_absorb_ok C put (dict_put_ok _ _ _ _ _ _) _ (set_prev C o (View 0%nat 0%nat)) _ (fv n (fun i => y i - y i)) (set_prev_est C put _ _ _ (View 0%nat 0%nat) E' ltac:(cbn; lia))) as H.
    assert (Z : fv n (fun i => y i - y i) = fv n (fun _ => 0)) by (apply fv_ext; intros; lra). rewrite Z in *.
    unfold partial_fit, zero_row. cbn [as_rows fit_rows]. unfold fit_row. rewrite K7. change (c_diff C p) with (diff p). rewrite HD, K6, vsub_fin.
    assert (Z2 : fv n (fun i => 0 - 0) = fv n (fun _ => 0)) by (apply fv_ext; intros; lra). rewrite Z2.
    set (v1 := mkInst (C := C) p (i_state v) (i_nfeat v) (Some (fv n (fun _ => 0)))).
    change (mkInst (i_params (bump v (fv n y))) (i_state (bump v (fv n y))) (i_nfeat (bump v (fv n y))) (Some (deref (A1 (fv n y) :: hp) (View 0%nat 0%nat)))) with (bump v (fv n y)) in H.
    assert (EV : bump v (fv n y) = bump v1 (fv n y)) by (unfold bump, v1; cbn; now rewrite K7).
    rewrite EV, absorb_bump in H.
    destruct (h_absorb C put (A1 (fv n y) :: hp) (set_prev C o (View 0%nat 0%nat)) (fv n (fun _ => 0))) as [[hp' o'] e]. destruct (absorb v1 (fv n (fun _ => 0))) as [v' e'] eqn:EA. cbn [fst snd] in H.
    destruct H as (-> & H1 & (ext & ->) & H3 & H4 & H5). pose proof (absorb_prev _ _ _ _ _ EA) as (Q1 & Q2 & _).
    assert (JJ : J y (mkW C ((A1 (fv n y) :: hp) ++ ext)%list [Some 0%nat] o') v').
    { constructor; cbn [w_held w_heap w_est]; auto.
      - cbn [set_prev h_mean] in H3. destruct H3 as [H3|[H3|(a & H3 & H6)]]; rewrite H3; [exact K5|discriminate|]. cbn in H6. intros [= ->]. lia. }
    destruct e' as [[]|e']; exact JJ.
  Qed.
  Lemma reuse_run xs : forall x w v, J x w v -> exists y, J y (fst (exec L C put w (refill xs))) (fold_left (fun o _ => fst (partial_fit o zero_row)) xs v).
  Proof.
    induction xs as [|y xs IH]; intros x w v Jw; [exists x; exact Jw|].
    change (refill (y :: xs)) with (Write 0%nat (A1 (fv n y)) :: PartialFitArr 0%nat :: refill xs). cbn [exec fold_left].
    pose proof (reuse_step x y w v Jw) as K. destruct (step L C put w (Write 0%nat (A1 (fv n y)))) as [w1 r1]. cbn [fst] in K. destruct (step L C put w1 (PartialFitArr 0%nat)) as [w2 r2]. cbn [fst] in K.
    destruct (IH y w2 _ K) as (z & IHz). exists z. destruct (exec L C put w2 (refill xs)) as [w3 r3]. exact IHz.
  Qed.
  (** Whatever the data, the estimator ends in the state of one fed zeros: every difference is x - x. *)
Theorem C12_reused_buffer x0 xs :
    let w := fst (shared_run L name P diff init update cov p (one_buffer x0 xs)) in
    let v := fold_left (fun o _ => fst (partial_fit o zero_row)) (x0 :: xs) (new (C := C) p) in
    i_state (contents C put (w_heap C w) (w_est C w)) = i_state v /\
    i_params (contents C put (w_heap C w) (w_est C w)) = i_params v.
  Proof.
    intros w v.
    assert (J0 : J x0 (mkW C [A1 (fv n x0)] [Some 0%nat] (mkH C p None None None (Some (View 0%nat 0%nat)))) (mkInst (C := C) p None None (Some (fv n (fun _ => 0))))).
    { constructor; cbn; auto; try discriminate. split; [reflexivity|]. split; [reflexivity|]. split; [reflexivity|]. split; [reflexivity|]. cbn. split; [reflexivity|lia]. }
    assert (EW : w = fst (exec L C put (mkW C [A1 (fv n x0)] [Some 0%nat] (mkH C p None None None (Some (View 0%nat 0%nat)))) (refill xs))).
    { subst w. unfold shared_run, one_buffer. cbn [exec step]. unfold start, got. cbn [w_heap w_held w_est app length nth_error]. unfold held. cbn [nth_error w_held].
      unfold h_partial_fit. cbn [h_as_rows nth_error h_fit_rows w_heap]. unfold h_fit_row. cbn [h_params hnew w_est]. change (c_diff C p) with (diff p). rewrite HD. cbn [h_prev hnew]. cbn [HeapModel.after set_prev h_params h_state h_mean h_nfeat hnew w_held].
      destruct (exec L C put _ (refill xs)) as [w1 r1]. reflexivity. }
    assert (EV : v = fold_left (fun o _ => fst (partial_fit o zero_row)) xs (mkInst (C := C) p None None (Some (fv n (fun _ => 0))))).
    { subst v. cbn [fold_left]. f_equal. unfold partial_fit, zero_row. cbn [as_rows fit_rows]. unfold fit_row, new. cbn [i_params i_prev]. change (c_diff C p) with (diff p). rewrite HD. reflexivity. }
    destruct (reuse_run xs x0 _ _ J0) as (y & Jy). rewrite <- EW, <- EV in Jy. pose proof (est_contents _ _ (dict_put_ok _ _ _ _ _ _) _ _ _ (j_est _ _ _ Jy)) as EC. rewrite EC. split; reflexivity.
  Qed.
End Reuse.

(** ** Concrete: EmpiricalCovariance(diff=True) fed from one reused buffer reports the zero matrix, where separate
    arrays give the covariance of the differences. *)
Section Examples.
  Context (L : LinAlg NumX) (n : nat).
  Notation C := (Empirical (N := NumX)).
  Notation put := (Some (put_mean (N := NumX))).
  Notation emp diff prog := (exec L C put (start C (mkEmpP diff)) prog).
  Notation emp_v diff prog := (vexec L C (vstart C (mkEmpP diff)) prog).
  Lemma exec_app (K : EstClass NumX) q w a b : exec L K q w (a ++ b)%list = (fst (exec L K q (fst (exec L K q w a)) b), (snd (exec L K q w a) ++ snd (exec L K q (fst (exec L K q w a)) b))%list).
  Proof.
    revert w. induction a as [|c a IH]; intros w.
    - cbn [exec app fst snd]. now destruct (exec L K q w b).
    - cbn [exec app]. destruct (step L K q w c) as [w1 r1]. rewrite IH. destruct (exec L K q w1 a) as [w2 r2]. reflexivity.
  Qed.
  Lemma vexec_app (K : EstClass NumX) w a b : vexec L K w (a ++ b)%list = (fst (vexec L K (fst (vexec L K w a)) b), (snd (vexec L K w a) ++ snd (vexec L K (fst (vexec L K w a)) b))%list).
  Proof.
    revert w. induction a as [|c a IH]; intros w.
    - cbn [vexec app fst snd]. now destruct (vexec L K w b).
    - cbn [vexec app]. destruct (vstep L K w c) as [w1 r1]. rewrite IH. destruct (vexec L K w1 a) as [w2 r2]. reflexivity.
  Qed.
  Lemma folds (K : EstClass NumX) (v o : inst K) (rs : list (vec NumX)) : fit_rows v rs = (o, Ok tt) -> fold_left (fun o x => fst (partial_fit o (In1 x))) rs v = o.
  Proof.
    revert v. induction rs as [|x rs IH]; intros v H; [now injection H|]. cbn [fold_left]. unfold partial_fit at 2. cbn [as_rows fit_rows] in *.
    destruct (fit_row v x) as [v' [[]|e]]; [|discriminate]. cbn [fst]. now apply IH.
  Qed.
  Lemma fold_zero {A} (K : EstClass NumX) (xs : list A) (v : inst K) :
    fold_left (fun o _ => fst (partial_fit o (zero_row n))) xs v = fold_left (fun o x => fst (partial_fit o (In1 x))) (map (fun _ => fv n (fun _ => 0)) xs) v.
  Proof. revert v. induction xs as [|x xs IH]; intros v; [reflexivity|]. cbn [map fold_left]. now rewrite IH. Qed.
  Lemma zero_diffs {A} (x0 : A) (xs : list A) : rdiffs (map (fun _ => (fun _ => 0) : obs) (x0 :: xs)) = map (fun _ => (fun _ => 0 - 0) : obs) xs.
  Proof. revert x0. induction xs as [|x xs IH]; intros x0; [reflexivity|]. cbn [map rdiffs]. f_equal. apply (IH x). Qed.
  Lemma vrefill xs : forall c v, let w := fst (vexec L C (mkV C [Some (A1 (fv n c))] v) (refill n xs)) in
    v_est C w = fold_left (fun o x => fst (partial_fit o (In1 x))) (map (fv n) xs) v.
  Proof.
    induction xs as [|x xs IH]; intros c v; [reflexivity|]. cbv zeta.
    change (refill n (x :: xs)) with (Write 0%nat (A1 (fv n x)) :: PartialFitArr 0%nat :: refill n xs). cbn [vexec vstep map fold_left].
    unfold vheld. cbn [v_held nth_error same_shape]. rewrite !fv_length, Nat.eqb_refl. cbn [upd v_est v_held nth_error]. cbn [value_of].
    destruct (partial_fit v (In1 (fv n x))) as [v1 r1]. cbn [v_after v_held fst].
    specialize (IH x v1). cbv zeta in IH. destruct (vexec L C (mkV C [Some (A1 (fv n x))] v1) (refill n xs)) as [w2 r2]. exact IH.
  Qed.
  Lemma cov_core (v v' : inst C) : i_state v = i_state v' -> i_params v = i_params v' -> covariance_ v = covariance_ v'.
  Proof. unfold covariance_, fitted_state. intros -> ->. reflexivity. Qed.
Theorem C12_reused_buffer_empirical x0 xs : xs <> [] ->
    let prog := (one_buffer n x0 xs ++ [Read Covariance])%list in
    last (snd (emp true prog)) (Ok None) = Ok (Some (A2 (fm n n (fun _ _ => 0)))) /\
    last (snd (emp_v true prog)) (Ok None) = Ok (Some (A2 (fm n n (pcov_of (rdiffs (x0 :: xs)))))).
  Proof.
    intros Hx prog. split.
    - subst prog. rewrite exec_app. cbn [snd]. set (w := fst (exec L C put (start C (mkEmpP true)) (one_buffer n x0 xs))).
      destruct (C12_reused_buffer L "EmpiricalCovariance" EmpP emp_diff (fun _ n => Ok (emp_init n)) (fun _ => emp_update) (fun _ => dict_cov) (mkEmpP true) eq_refl n x0 xs) as (H1 & H2).
      fold w in H1, H2. unfold shared_run in H1, H2. change (DC "EmpiricalCovariance" EmpP emp_diff (fun _ n => Ok (emp_init n)) (fun _ => emp_update) (fun _ => dict_cov)) with C in H1, H2. fold w in H1, H2.
      pose proof (cov_core _ _ H1 H2) as H3.
      assert (HO : observes n true (map (fv n) (map (fun _ => (fun _ => 0) : obs) (x0 :: xs))) (rdiffs (map (fun _ => (fun _ => 0) : obs) (x0 :: xs)))) by apply observes_diff.
      assert (HN : rdiffs (map (fun _ => (fun _ => 0) : obs) (x0 :: xs)) <> []) by (rewrite zero_diffs; destruct xs; [congruence|discriminate]).
      destruct (Empirical_run n true _ _ HO HN) as (o & E1 & _ & _ & E4 & _).
      unfold partial_fit in E1. cbn [as_rows] in E1.
      rewrite fold_zero in H3. rewrite map_map in E1. rewrite (folds C _ _ _ E1) in H3. rewrite E4 in H3.
      cbn [exec step]. unfold h_read. cbn [read_prop]. rewrite H3. cbn [got]. rewrite nth_snoc. cbn [snd]. rewrite last_last. do 3 f_equal.
      rewrite zero_diffs. apply fm_ext. intros i j Hi Hj. unfold pcov_of. rewrite map_map. 
      assert (HM : forall i, mean_of (map (fun _ : obs => (fun _ : nat => 0 - 0) : obs) xs) i = 0).
      { intros k. unfold mean_of. rewrite map_map. rewrite (lsum_map_ext _ (fun _ => 0)) by (intros; lra). rewrite lsum_const. lra. }
      rewrite !HM. rewrite (lsum_map_ext _ (fun _ => 0)) by (intros; lra). rewrite lsum_const. lra.
    - subst prog. rewrite vexec_app. cbn [snd]. unfold one_buffer. cbn [vexec vstep v_got vstart v_held v_est app]. unfold vheld. cbn [nth_error v_held value_of].
      assert (HF : partial_fit (new (C := C) (mkEmpP true)) (In1 (fv n x0)) = (mkInst (C := C) (mkEmpP true) None None (Some (fv n x0)), Ok tt)) by reflexivity.
      rewrite HF. cbn [v_after v_held].
      pose proof (vrefill xs x0 (mkInst (C := C) (mkEmpP true) None None (Some (fv n x0)))) as HV. cbv zeta in HV.
      destruct (vexec L C (mkV C [Some (A1 (fv n x0))] (mkInst (C := C) (mkEmpP true) None None (Some (fv n x0)))) (refill n xs)) as [w1 r1]. cbn [fst] in *.
      assert (HN : rdiffs (x0 :: xs) <> []) by (destruct xs; [congruence|discriminate]).
      destruct (Empirical_run n true _ _ (observes_diff n (x0 :: xs)) HN) as (o & E1 & _ & _ & E4 & _).
      unfold partial_fit in E1. cbn [as_rows map fit_rows] in E1. change (fit_row (new (C := C) (mkEmpP true)) (fv n x0)) with (mkInst (C := C) (mkEmpP true) None None (Some (fv n x0)), Ok tt) in E1.
      rewrite (folds C _ _ _ E1) in HV. cbn [read_prop]. rewrite HV, E4. cbn [bind v_got snd]. now rewrite last_last.
  Qed.

  Lemma emp_put_ok : put_ok C put.
  Proof. exact (dict_put_ok "EmpiricalCovariance" EmpP emp_diff (fun _ n => Ok (emp_init n)) (fun _ => emp_update) (fun _ => dict_cov)). Qed.
  (** Writing [v] into the array returned by [location_] makes the next update use [v] as the mean so far. *)
Theorem C13_write_into_location x0 xs v x :
    let ys := x0 :: xs in
    let k := INR (length ys) in
    let prog := [PartialFit (In2 (map (fv n) ys)); Location; Write 0%nat (A1 (fv n v)); PartialFit (In1 (fv n x)); Read Covariance] in
    last (snd (emp false prog)) (Ok None) = Ok (Some (A2 (fm n n (fun i j => k / (k + 1) * pcov_of ys i j + k / (k + 1) ^ 2 * ((x i - v i) * (x j - v j)))))) /\
    last (snd (emp_v false prog)) (Ok None) = Ok (Some (A2 (fm n n (pcov_of (ys ++ [x])%list)))).
  Proof.
    intros ys k prog.
    destruct (@run_abs_g C mkEmpP emp_pair _ (emp_d n) emp_step n a_init eq_refl ys false (map (fv n) ys) (observes_plain n ys) ltac:(discriminate)) as (o & E1 & E2 & _).
    { clear. generalize a_init. induction ys as [|y l IH]; intros a; [exact I|]. split; [apply emp_update_fin; reflexivity|apply IH]. }
    destruct (emp_fold ys) as (F1 & F2 & F3). set (a := fold_left emp_step ys a_init) in *. clearbody a.
    assert (KS : length ys = S (length xs)) by reflexivity.
    split.
    - subst prog. change [PartialFit (In2 (map (fv n) ys)); Location; Write 0%nat (A1 (fv n v)); PartialFit (In1 (fv n x)); Read Covariance] with
        ([PartialFit (In2 (map (fv n) ys))] ++ [Location; Write 0%nat (A1 (fv n v)); PartialFit (In1 (fv n x)); Read Covariance])%list. rewrite exec_app. cbn [snd].
      destruct (exec_sim L C put emp_put_ok [PartialFit (In2 (map (fv n) ys))] [] _ _ (start_sim C put (mkEmpP false)) I) as (_ & (fz & S) & HPm).
      assert (HH : w_held C (fst (exec L C put (start C (mkEmpP false)) [PartialFit (In2 (map (fv n) ys))])) = []).
      { cbn [exec step]. destruct (h_partial_fit C put (w_heap C (start C (mkEmpP false))) (w_est C (start C (mkEmpP false))) (AList (In2 (map (fv n) ys)))) as [[hp0 oo] rr]. reflexivity. }
      pose proof (s_est _ _ _ _ _ S) as E. destruct (fst (exec L C put (start C (mkEmpP false)) [PartialFit (In2 (map (fv n) ys))])) as [hp hd q]. clear S.
      assert (EV : v_est C (fst (vexec L C (vstart C (mkEmpP false)) [PartialFit (In2 (map (fv n) ys))])) = o).
      { cbn [vexec vstep vstart v_est]. rewrite E1. reflexivity. }
      rewrite EV in E. clear EV. cbn [w_heap w_est w_held] in *. subst hd.
      pose proof (est_contents _ _ emp_put_ok _ _ _ E) as EC.
      destruct E as (P1 & P2 & P3 & P4 & P5). unfold mean_ok in P4. rewrite P2, E2, P1 in P4. cbn [c_mean Empirical dict_class] in P4.
      destruct P4 as (ad & M1 & M2).
      assert (LOC : location_ o = Ok (fv n (am a))).
      { unfold location_, fitted_state. rewrite E2. cbn. rewrite F1. reflexivity. }
      assert (LA : (ad < length hp)%nat) by (apply nth_error_Some; congruence).
      cbn [exec step w_heap w_est]. unfold h_location. rewrite EC, LOC, M1. cbn [got]. rewrite M2. unfold held. cbn [w_held w_heap w_est nth_error app]. rewrite M2. cbn [same_shape]. rewrite !fv_length, Nat.eqb_refl. cbn [w_held w_heap w_est].
      unfold h_partial_fit. cbn [h_as_rows as_rows bind map h_fit_rows]. unfold h_fit_row. rewrite HPm. cbn [c_diff C Empirical dict_class emp_diff deref start hnew h_params w_est].
      unfold h_absorb. set (ct := contents C put (upd hp ad (A1 (fv n v))) q).
      assert (CT : ct = mkInst (C := C) (mkEmpP false) (Some (emp_d n (mkA (an a) v (aC a)))) (h_nfeat C q) (i_prev ct)).
      { subst ct. unfold contents. cbn [i_prev]. rewrite P2, E2, M1, HPm. rewrite upd_same by auto. reflexivity. }
      rewrite CT. unfold absorb. cbn [i_state i_params i_nfeat i_prev]. cbn [c_update C Empirical dict_class].
      rewrite (emp_update_fin n _ (mkA (an a) v (aC a)) x) by reflexivity. rewrite P2, E2. cbn [i_state i_nfeat]. unfold store. rewrite HPm. cbn [c_mean C Empirical dict_class start hnew h_params w_est].
      cbn [HeapModel.after w_held]. cbn [w_heap w_est w_held].
      set (a' := emp_step (mkA (an a) v (aC a)) x).
      assert (DM : dict_mean (emp_d n a') = Ok (fv n (am a'))) by reflexivity. rewrite DM. cbn [HeapModel.after quiet]. cbn [w_heap w_est w_held].
      unfold h_read. cbn [read_prop].
      assert (CV : covariance_ (contents C put ((upd hp ad (A1 (fv n v)) ++ [A1 (fv n (am a'))])%list)
         (mkH C (mkEmpP false) (Some (emp_d n a')) (Some (length (upd hp ad (A1 (fv n v))))) (h_nfeat C q) (h_prev C q))) =
         Ok (fm n n (fun i j => k / (k + 1) * pcov_of ys i j + k / (k + 1) ^ 2 * ((x i - v i) * (x j - v j))))).
      { unfold covariance_, fitted_state, contents. cbn [i_state h_state h_mean]. rewrite nth_snoc. cbn -[INR].
        rewrite (fm_ext n n _ (fun i j => k / (k + 1) * pcov_of ys i j + k / (k + 1) ^ 2 * ((x i - v i) * (x j - v j)))).
        - apply to_symmetric_sym_fin. intros i j Hi Hj. rewrite (sym_pcov ys n i j Hi Hj). ring.
        - intros i j Hi Hj. rewrite F3, F1. subst k. rewrite (S_INR (length ys)).
          pose proof (pos_INR (length ys)). field. lra. }
      match goal with |- context [match covariance_ ?z with _ => _ end] => replace (covariance_ z) with (Ok (fm n n (fun i j => k / (k + 1) * pcov_of ys i j + k / (k + 1) ^ 2 * ((x i - v i) * (x j - v j))))) by (symmetry; exact CV) end.
      cbn [got]. rewrite nth_snoc. cbn [snd].
      match goal with |- last (?l ++ _)%list _ = _ => generalize l end. intros l.
      change (last (l ++ ([Ok (Some (A1 (fv n (am a)))); Ok None; Ok None] ++ [Ok (Some (A2 (fm n n (fun i j => k / (k + 1) * pcov_of ys i j + k / (k + 1) ^ 2 * ((x i - v i) * (x j - v j))))))]))%list (Ok None) = Ok (Some (A2 (fm n n (fun i j => k / (k + 1) * pcov_of ys i j + k / (k + 1) ^ 2 * ((x i - v i) * (x j - v j))))))).
      rewrite app_assoc. now rewrite last_last.
    - subst prog. cbn [vexec vstep vstart v_est v_held]. rewrite E1. cbn [v_after v_est v_held].
      assert (LOC : location_ o = Ok (fv n (am a))).
      { unfold location_, fitted_state. rewrite E2. cbn. rewrite F1. reflexivity. }
      rewrite LOC. cbn [bind v_got v_held v_est vstart app]. unfold vheld. cbn [v_held nth_error same_shape]. rewrite !fv_length, Nat.eqb_refl. cbn [v_held v_est upd].
      destruct (Empirical_run n false _ _ (observes_plain n (ys ++ [x])%list) ltac:(discriminate)) as (o2 & G1 & _ & _ & G4 & _).
      assert (PF : partial_fit o (In1 (fv n x)) = (o2, Ok tt)).
      { unfold partial_fit in *. cbn [as_rows] in *. rewrite map_app, fit_rows_app in G1. rewrite E1 in G1. exact G1. }
      rewrite PF. cbn [v_after v_est v_held read_prop]. rewrite G4. reflexivity.
  Qed.
End Examples.

(** A program that meets the hypothesis of C12_polite_programs and still writes into an array it holds. *)
Example polite_program {N : Num} (a b c : vec N) : polite true true [] [Alloc (A1 a); PartialFitArr 0%nat; Alloc (A1 b); PartialFitArr 1%nat; Read Covariance; Write 2%nat (A2 [c]); Look 2%nat; Read Precision].
Proof. cbn. auto. Qed.
Example impolite_program {N : Num} (a b : vec N) : ~ polite true true [] [Alloc (A1 a); PartialFitArr 0%nat; Write 0%nat (A1 b); PartialFitArr 0%nat].
Proof. cbn. intros [H _]. discriminate. Qed.

(** * C101: the training set the tree is given, and the contaminated scenario *)
From Coq Require Import Reals ZArith Bool String List Lia Lra Arith.
From Verif Require Import Num Numpy PyVal LinalgModel BaseModel Estimators AssessModel RecommendModel OosModel ResearchModel SpikedModel ListLemmas TrainModel PowerModel RMat LinSpec Fin RealSpec EmpFacts GaussSpec ScoreReal GaussReal AssessReal Props_Assess GaussReal 
  Contracts Props_Train Props_TrainRun Props_GodambeRun.
Import ListNotations.
Local Open Scope string_scope.
Local Open Scope list_scope.

(** ** Contamination *)
Section Contaminated.
Context {N : Num} (R : Rand N).
(** [tr[mask] = noise]: row i is replaced exactly when mask i is true, by the next unused row of the noise. *)
Lemma overwrite_nth (mask : list bool) (noise tr : mat N) i row : length (filter (fun b => b) mask) = length noise -> length mask = length tr -> nth_error tr i = Some row ->
  nth_error (overwrite mask noise tr) i =
    match nth_error mask i with Some true => nth_error noise (length (filter (fun b => b) (firstn i mask))) | _ => Some row end.
Proof.
  revert mask noise i. induction tr as [|r tr IH]; intros mask noise i HC HL HI; [destruct i; discriminate|]. destruct mask as [|b mask]; [discriminate|]. cbn [length] in HL. injection HL as HL.
  destruct b; cbn [filter length] in HC.
  - destruct noise as [|z noise]; [discriminate|]. injection HC as HC. destruct i as [|i]; [reflexivity|]. cbn [overwrite nth_error firstn filter length] in *. now rewrite (IH mask noise i HC HL HI).
  - destruct i as [|i]; [cbn; cbn in HI; exact HI|]. cbn [overwrite nth_error firstn filter] in *. now rewrite (IH mask noise i HC HL HI).
Qed.
(** The contaminated scenario: the rows whose uniform draw is below 0.05 are replaced by 8 times the rows of a standard normal sample, in order; the others are the rows drawn
    from the true covariance. *)
Theorem C101_contaminated d n n_test g scs g' train test truth : build_scenarios R d n n_test g = Ok (scs, g') -> In ("contaminated", train, test, truth) scs ->
  exists rows u z ga gb gc gd, TrainModel.sample R truth n false ga = Ok (rows, gb) /\ r_random R (length rows) gb = (u, gc) /\
    let hit := fun x : N => nltb x (nlit 5 2) in
    r_normal R (length (filter hit u)) d gc = (z, gd) /\ length train = length rows /\
    (length u = length rows -> length z = length (filter hit u) -> forall i row, nth_error rows i = Some row ->
       nth_error train i = match nth_error u i with
                           | Some x => if hit x then option_map (map (fun y => nmul y (nofZ 8))) (nth_error z (length (filter hit (firstn i u)))) else Some row
                           | None => Some row end).
Proof.
  intros E Hi. unfold build_scenarios in E. apply dbind_ok in E as (cov1 & g1 & F1 & E). apply dbind_ok in E as (s1 & g2 & E1 & E). apply dbind_ok in E as (s2 & g3 & E2 & E). apply dbind_ok in E as (s3 & g4 & E3 & E).
  apply dbind_ok in E as (covh & g5 & F2 & E). apply dbind_ok in E as (s4 & g6 & E4 & E). apply dbind_ok in E as (ra & g7 & E5 & E). apply dbind_ok in E as (rb & g8 & E6 & E). apply dbind_ok in E as (rt & g9 & E7 & E).
  apply dbind_ok in E as (covc & g10 & F3 & E). apply dbind_ok in E as (tr & g11 & E8 & E). apply dbind_ok in E as (u & g12 & E9 & E). cbv zeta in E. apply dbind_ok in E as (z & g13 & E10 & E).
  apply dbind_ok in E as (te & g14 & E11 & E). apply dbind_ok in E as (cov3 & g15 & F4 & E). apply dbind_ok in E as (s7 & g16 & E12 & E). apply dret_ok in E as [-> _].
  assert (NM : forall nm cov m k h ga s gb, TrainModel.drawn R nm cov m k h ga = Ok (s, gb) -> fst (fst (fst s)) = nm).
  { intros nm cov m k h ga s gb H. unfold TrainModel.drawn in H. apply dbind_ok in H as (a & ? & _ & H). apply dbind_ok in H as (b & ? & _ & H). apply dret_ok in H as [-> _]. reflexivity. }
  assert (Hc : train = overwrite (map (fun x => nltb x (nlit 5 2)) u) (mmap (fun x => nmul x (nofZ 8)) z) tr /\ truth = covc).
  { cbn [In] in Hi. destruct Hi as [X|[X|[X|[X|[X|[X|[X|[]]]]]]]].
    - apply NM in E1. rewrite X in E1. discriminate.
    - apply NM in E2. rewrite X in E2. discriminate.
    - apply NM in E3. rewrite X in E3. discriminate.
    - apply NM in E4. rewrite X in E4. discriminate.
    - discriminate.
    - injection X as <- _ <-. auto.
    - apply NM in E12. rewrite X in E12. discriminate. }
  destruct Hc as [-> ->]. unfold ddraw in E9, E10. injection E9 as E9. injection E10 as E10.
  exists tr, u, z, g10, g11, g12, g13. split; [exact E8|]. split; [exact E9|]. cbv zeta.
  assert (FL : forall l : list N, length (filter (fun b => b) (map (fun x => nltb x (nlit 5 2)) l)) = length (filter (fun x => nltb x (nlit 5 2)) l)).
  { induction l as [|x l IH]; [reflexivity|]. cbn [map filter]. destruct (nltb x (nlit 5 2)); cbn [length]; now rewrite IH. }
  rewrite FL in E10. split; [exact E10|]. split.
  - clear. generalize (map (fun x : N => nltb x (nlit 5 2)) u) (mmap (fun x : N => nmul x (nofZ 8)) z). intros mask noise. revert mask noise. induction tr as [|r tr IH]; intros [|[|] mask] noise; try reflexivity; cbn [overwrite length].
    + destruct noise; cbn [length]; now rewrite IH.
    + now rewrite IH.
  - intros HU HZ i row Hi'. rewrite (overwrite_nth _ _ tr i row); [|rewrite FL; unfold mmap; rewrite map_length; auto|now rewrite map_length|exact Hi'].
    rewrite nth_error_map. destruct (nth_error u i) as [x|]; cbn [option_map]; [|reflexivity]. destruct (nltb x (nlit 5 2)); [|reflexivity]. rewrite firstn_map, FL. unfold mmap. now rewrite nth_error_map.
Qed.
End Contaminated.

(** ** Standardisation *)
Local Open Scope R_scope.
(** feature j of the examples *)
Definition feature (fs : list (nat -> R)) (j : nat) : list R := map (fun f => f j) fs.
(** the standard score, with the floor the code adds to the standard deviation *)
Definition zscore (fs : list (nat -> R)) (j : nat) (x : R) : R := (x - lmean (feature fs j)) / (sd_of (feature fs j) + 1 / 1000000000).
Lemma mcol_fv q (fs : list (nat -> R)) j : (j < q)%nat -> mcol (map (fv q) fs) j = map (fun x => Fin x : NumX) (feature fs j).
Proof. intros Hj. unfold mcol, feature. rewrite !map_map. apply map_ext. intros f. exact (fv_get q f j Hj). Qed.
Lemma col_means_fin q (fs : list (nat -> R)) : (1 <= q)%nat -> fs <> [] -> col_means (map (fv q) fs) = fv q (fun j => lmean (feature fs j)).
Proof.
  intros Hq H. unfold col_means. assert (EN : ncols (map (fv q) fs) = q) by (destruct fs; [contradiction|]; cbn [map ncols]; apply fv_length). rewrite EN. unfold fv at 2. apply tab_ext. intros j Hj. rewrite mcol_fv by auto.
  assert (HF : feature fs j <> []) by (destruct fs; [contradiction|discriminate]). rewrite <- (map_id (feature fs j)) at 2. exact (vmean_map (fun x => x) (feature fs j) HF).
Qed.
Lemma col_stds_fin q (fs : list (nat -> R)) : (1 <= q)%nat -> fs <> [] -> col_stds (map (fv q) fs) = fv q (fun j => sd_of (feature fs j) + 1 / 1000000000).
Proof.
  intros Hq H. unfold col_stds. assert (EN : ncols (map (fv q) fs) = q) by (destruct fs; [contradiction|]; cbn [map ncols]; apply fv_length). rewrite EN. unfold fv at 3. apply tab_ext. intros j Hj. rewrite mcol_fv by auto.
  assert (HF : feature fs j <> []) by (destruct fs; [contradiction|discriminate]). pose proof (vstd_fin (feature fs j) HF) as V. unfold vstd in V.
  match type of V with ?a = _ => match goal with |- context [nsqrt ?b] => replace (nsqrt b) with (Fin (sd_of (feature fs j)) : NumX) by (symmetry; exact V) end end.
  assert (EL : @nlit NumX 1 9 = Fin (1 / 1000000000)) by (rewrite nlit_fin; apply (f_equal Fin); cbn; lra). rewrite EL. reflexivity.
Qed.
Lemma standardise_fin q (m s f : nat -> R) : (forall j, (j < q)%nat -> s j <> 0) -> standardise (N := NumX) (fv q m) (fv q s) (fv q f) = Ok (fv q (fun j => (f j - m j) / s j)).
Proof. intros Hs. unfold standardise. rewrite vsub_fin. cbn [bind]. now rewrite vdiv_fin. Qed.
(** The tree is fitted to the standard scores of the features, with the labels in the same order: every column has mean 0 and spread at most 1; the recommender standardises the
    window's features with the same constants before asking the tree. *)
Theorem C101_standardised L q (set : list ((nat -> R) * string)) sk_fit clf Z : (1 <= q)%nat -> set <> [] ->
  let fs := map fst set in let ys := map snd set in
  Z = map (fun f => fv q (fun j => zscore fs j (f j))) fs -> sk_fit Z ys = Ok clf ->
  exists t, fit_tree sk_fit (map (fun e => (fv q (fst e) : vec NumX, snd e)) set) = Ok t /\
    (forall window f, train_features L window = Ok (fv q f) -> predict L t window = clf (fv q (fun j => zscore fs j (f j)))) /\
    (forall j, lmean (map (fun f => zscore fs j (f j)) fs) = 0) /\ forall j, 0 <= lmean (map (fun f => zscore fs j (f j) * zscore fs j (f j)) fs) <= 1.
Proof.
  intros Hq Hs fs ys HZ EK. assert (Hf : fs <> []) by (unfold fs; destruct set; [contradiction|discriminate]).
  assert (SP : forall j, 0 < sd_of (feature fs j) + 1 / 1000000000) by (intros j; pose proof (sd_nonneg (feature fs j)); lra).
  exists (fv q (fun j => lmean (feature fs j)) : vec NumX, fv q (fun j => sd_of (feature fs j) + 1 / 1000000000) : vec NumX, clf). split; [|split; [|split]].
  - unfold fit_tree. destruct (map (fun e => (fv q (fst e) : vec NumX, snd e)) set) as [|e1 l1] eqn:EM; [destruct set; [contradiction|discriminate]|]. rewrite <- EM. cbv zeta.
    assert (E1 : map fst (map (fun e : (nat -> R) * string => (fv q (fst e) : vec NumX, snd e)) set) = map (fv q) fs) by (unfold fs; rewrite !map_map; reflexivity).
    assert (E2 : map snd (map (fun e : (nat -> R) * string => (fv q (fst e) : vec NumX, snd e)) set) = ys) by (unfold ys; rewrite map_map; reflexivity).
    rewrite E1, E2, col_means_fin, col_stds_fin by auto. rewrite (mapM_map_ok _ (fv q) (fun f => fv q (fun j => zscore fs j (f j)))).
    + cbn [bind]. rewrite <- HZ, EK. reflexivity.
    + intros f _. apply standardise_fin. intros j _. specialize (SP j). lra.
  - intros window f Ef. unfold predict. rewrite Ef. cbn [bind fst snd]. rewrite standardise_fin by (intros j _; specialize (SP j); lra). reflexivity.
  - intros j. unfold zscore. set (m := lmean (feature fs j)). set (s := sd_of (feature fs j) + 1 / 1000000000). rewrite (lmean_ext _ (fun f => / s * (f j) + - (m / s))) by (intros; unfold Rdiv; ring).
    rewrite (lmean_plus (fun f => / s * f j) (fun _ => - (m / s))), lmean_const, (lmean_scal (/ s) (fun f => f j)) by auto. fold (feature fs j). fold m. unfold Rdiv. ring.
  - intros j. split; [apply (lmean_nonneg (fun f => zscore fs j (f j) * zscore fs j (f j)) fs); intros; apply Rle_0_sqr|].
    unfold zscore. set (m := lmean (feature fs j)). set (sd := sd_of (feature fs j)). set (s := sd + 1 / 1000000000). assert (Hs0 : 0 < s) by apply SP. rewrite (lmean_ext _ (fun f => / (s * s) * ((f j - m) * (f j - m)))) by (intros; field; lra).
    rewrite lmean_scal. assert (V : lmean (map (fun f => (f j - m) * (f j - m)) fs) = sd * sd).
    { unfold sd, sd_of. rewrite sqrt_sqrt; [|apply (lmean_nonneg (fun x => (x - lmean (feature fs j)) * (x - lmean (feature fs j)))); intros; apply Rle_0_sqr]. fold m. change (feature fs j) with (map (fun f : nat -> R => f j) fs). rewrite map_map. reflexivity. }
    rewrite V. assert (0 <= sd) by apply sd_nonneg. assert (0 < s * s) by (apply Rmult_lt_0_compat; lra). apply (Rmult_le_reg_l (s * s)); [lra|]. rewrite <- Rmult_assoc, Rinv_r by lra. rewrite Rmult_1_l, Rmult_1_r. apply Rmult_le_compat; unfold s; lra.
Qed.
(** Two examples of one feature, 1 and 3: the tree is shown about -1 and 1. *)
Example C101_standardised_witness : let set := [((fun _ => 1) : nat -> R, "LedoitWolf"); ((fun _ => 3), "EmpiricalCovariance")] in
  let fit := fun (_ : mat NumX) (ys : list string) => Ok (fun _ : vec NumX => match ys with y :: _ => Ok y | [] => Err IndexError end) in
  (exists t, fit_tree fit (map (fun e => (fv 1 (fst e) : vec NumX, snd e)) set) = Ok t) /\ zscore (map fst set) 0 1 = - (1 / (1 + 1 / 1000000000)) /\ zscore (map fst set) 0 3 = 1 / (1 + 1 / 1000000000).
Proof.
  intros set fit. split; [|].
  - destruct lawful_satisfiable as [L _]. destruct (C101_standardised L 1 set fit (fun _ => Ok "LedoitWolf") _ ltac:(lia) ltac:(discriminate) eq_refl eq_refl) as (t & E & _). eauto.
  - assert (M : lmean (feature (map fst set) 0) = 2) by (unfold lmean, feature; cbn; field). assert (S : sd_of (feature (map fst set) 0) = 1).
    { unfold sd_of. rewrite M. unfold feature, lmean. cbn. replace (((1 - 2) * (1 - 2) + ((3 - 2) * (3 - 2) + 0)) / (1 + 1)) with 1 by field. exact sqrt_1. }
    unfold zscore. rewrite M, S. split; field.
Qed.
(** The mask picks the rows in order. *)
Example C101_contaminated_witness (a b c z y : vec NumX) : overwrite [true; false; true] [z; y] [a; b; c] = [z; b; y].
Proof. reflexivity. Qed.

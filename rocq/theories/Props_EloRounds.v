(** * C116: chance and history *)
From Coq Require Import Reals ZArith String Ascii List Lia Lra Psatz Arith Bool.
From Verif Require Import Num Numpy PyVal ListLemmas RMat Fin EloModel EloSpec Props_Elo.
Import ListNotations.
Local Open Scope string_scope.
Local Open Scope R_scope.
(** ** Chance matters: after one win each, whoever won last is ahead *)
Lemma chance_below_half d : 0 < d -> win_chance d < 1 / 2.
Proof.
  intros H. unfold win_chance, logistic. destruct (Rlt_dec 3200 d); [lra|]. destruct (Rlt_dec d (-3200)); [lra|].
  assert (Q : 1 < Rpower 10 (d / 400)) by (rewrite <- (Rpower_O 10) by lra; apply Rpower_lt; lra). unfold Rdiv at 1 3. apply Rmult_lt_compat_l; [lra|]. apply Rinv_lt_contravar; lra.
Qed.
Lemma loop_step {G} pow10 (choices : list (string * Z) -> G -> nat * G) k n ctn elo g rem i g' s c w l : remaining_battles ctn = rem -> rem <> [] -> choices rem g = (i, g') -> nth_error rem i = Some (s, c) -> split_gt s = [w; l] ->
  elo_loop (N := NumX) pow10 choices k (S n) ctn elo g =
    (ch <- elo_change pow10 (cget w elo) (cget l elo) n1 k (nofZ 400) ;; let elo1 := dput w (nadd (cget w elo) (fst ch)) elo in
     elo_loop pow10 choices k n (dput s (c - 1)%Z ctn) (dput l (nadd (cget l elo1) (snd ch)) elo1) g').
Proof. intros H1 H2 H3 H4 H5. cbn [elo_loop]. rewrite H1. destruct rem; [contradiction|]. rewrite H3. unfold at_index. rewrite H4. cbn [bind fst snd]. now rewrite H5. Qed.
Lemma loop_done {G} pow10 (choices : list (string * Z) -> G -> nat * G) k n ctn elo g : remaining_battles ctn = [] -> elo_loop (N := NumX) pow10 choices k n ctn elo g = Ok (elo, ctn, g).
Proof. intros H. destruct n; [reflexivity|]. cbn [elo_loop]. now rewrite H. Qed.
Theorem C116_order_matters pow10 k limit c : is_pow10 pow10 -> 0 < k -> (2 <= limit)%nat -> (c = 0 \/ c = 1)%nat ->
  exists ra rb rest, ra + rb = 3000 /\ (if Nat.eqb c 0 then ra < 1500 else 1500 < ra) /\
    elo_from_win_counts pow10 (fun l (g : unit) => (Nat.min c (length l - 1), g)) (Fin k) limit [("ann>bob", 1%Z); ("bob>ann", 1%Z)] tt =
      Ok ([("bob", Fin rb : NumX); ("ann", Fin ra : NumX)], rest, tt).
Proof.
  intros HP Hk HL Hc. destruct limit as [|[|l]]; try lia. pose proof (chance_below_half k Hk) as Q.
  assert (Z0 : win_chance (1500 - 1500) = 1 / 2). { rewrite Rminus_eq_0. unfold win_chance, logistic. destruct (Rlt_dec 3200 0); [lra|]. destruct (Rlt_dec 0 (-3200)); [lra|]. replace (0 / 400) with 0 by lra. rewrite Rpower_O by lra. lra. }
  assert (D : forall w lo, cget w [("ann", Fin lo : NumX)] = cget w [("ann", Fin lo : NumX)]) by reflexivity. clear D.
  assert (ST : forall a b, elo_change pow10 (Fin a) (Fin b) n1 (Fin k) (nofZ 400) = Ok (Fin (k * (1 - win_chance (b - a))), Fin (- k * (1 - win_chance (b - a))))).
  { intros a b. unfold elo_change. rewrite sub_fin, elo_expected_fin by exact HP. cbn [bind]. now rewrite n1_fin, sub_fin, opp_fin, !mul_fin. }
  set (s1 := k * (1 - 1 / 2)). set (s2 := k * (1 - win_chance k)). assert (S2 : s1 < s2) by (unfold s1, s2; nra).
  assert (G1 : forall a b, cget "ann" [("bob", Fin b : NumX); ("ann", Fin a : NumX)] = Fin a) by reflexivity.
  assert (G2 : forall a b, cget "bob" [("bob", Fin b : NumX); ("ann", Fin a : NumX)] = Fin b) by reflexivity.
  assert (G3 : forall a b s, dput "ann" (Fin s : NumX) [("bob", Fin b : NumX); ("ann", Fin a : NumX)] = [("bob", Fin b : NumX); ("ann", Fin s : NumX)]) by reflexivity.
  assert (G4 : forall a b s, dput "bob" (Fin s : NumX) [("bob", Fin b : NumX); ("ann", Fin a : NumX)] = [("bob", Fin s : NumX); ("ann", Fin a : NumX)]) by reflexivity.
  assert (W1 : win_chance (1500 + s1 - (1500 + - k * (1 - 1 / 2))) = win_chance k) by (f_equal; unfold s1; lra).
  assert (BAL : s1 + - k * (1 - 1 / 2) = 0) by (unfold s1; lra).
  unfold elo_from_win_counts. change (contestants [("ann>bob", 1%Z); ("bob>ann", 1%Z)]) with (Ok (["bob"; "ann"])). cbn [bind map]. rewrite !nofZ_fin.
  destruct Hc as [-> | ->]; cbn [Nat.eqb].
  - exists (1500 + s1 + - s2), (1500 + - k * (1 - 1 / 2) + s2). eexists. split; [unfold s1; lra|]. split; [lra|].
    erewrite loop_step by (first [reflexivity|discriminate]). rewrite G1, G2, ST. cbn [bind fst snd]. cbv zeta. rewrite add_fin, G3, G2, add_fin, G4, Z0. fold s1.
    erewrite loop_step by (first [reflexivity|discriminate]). rewrite G1, G2, ST, W1. cbn [bind fst snd]. cbv zeta. fold s2. rewrite add_fin, G4, G1, add_fin, G3.
    rewrite loop_done by reflexivity. do 7 f_equal. unfold s2; ring.
  - exists (1500 + - k * (1 - 1 / 2) + s2), (1500 + s1 + - s2). eexists. split; [unfold s1; lra|]. split; [unfold s1 in S2; lra|].
    erewrite loop_step by (first [reflexivity|discriminate]). rewrite G1, G2, ST. cbn [bind fst snd]. cbv zeta. rewrite add_fin, G4, G1, add_fin, G3, Z0. fold s1.
    erewrite loop_step by (first [reflexivity|discriminate]). rewrite G1, G2, ST, W1. cbn [bind fst snd]. cbv zeta. fold s2. rewrite add_fin, G3, G2, add_fin, G4.
    rewrite loop_done by reflexivity. do 6 f_equal. unfold s2; ring.
Qed.
(** ** What is on record can be rated *)
Definition on_file (battles : list (string * Z)) : Prop :=
  exists bs f, battles = counter bs f /\ NoDup bs /\ well_named bs /\ (forall b, In b bs -> (1 <= f b)%Z).
Lemma dget_counter bs f b : well_named bs -> plain (fst b) -> plain (snd b) -> ~ In b bs -> dget (key b) (counter bs f) = None.
Proof.
  intros HW P1 P2. unfold counter. induction bs as [|a l IH]; [reflexivity|]. intros H. cbn [map dget]. destruct (String.eqb_spec (key b) (key a)) as [E|_].
  - exfalso. destruct (HW a (or_introl eq_refl)). apply key_inj in E; auto. apply H. now left.
  - apply IH; [intros x Hx; apply HW; now right|]. intros G. apply H. now right.
Qed.
Lemma dput_counter bs f b v : well_named bs -> plain (fst b) -> plain (snd b) -> ~ In b bs -> dput (key b) v (counter bs f) = (counter bs f ++ [(key b, v)])%list.
Proof.
  intros HW P1 P2. unfold counter. induction bs as [|a l IH]; [reflexivity|]. intros H. cbn [map dput app]. destruct (String.eqb_spec (key b) (key a)) as [E|_].
  - exfalso. destruct (HW a (or_introl eq_refl)). apply key_inj in E; auto. apply H. now left.
  - f_equal. apply IH; [intros x Hx; apply HW; now right|]. intros G. apply H. now right.
Qed.
Lemma key_NoDup bs : well_named bs -> NoDup bs -> NoDup (map key bs).
Proof.
  intros HW ND. induction bs as [|a l IH]; [constructor|]. apply NoDup_cons_iff in ND as [N1 N2]. cbn [map]. constructor; [|apply IH; auto; intros x Hx; apply HW; now right].
  intros H. apply in_map_iff in H as (x & E & Hx). apply N1. destruct (HW x (or_intror Hx)), (HW a (or_introl eq_refl)). apply key_inj in E; auto. now subst.
Qed.
Lemma put_on_file battles b v : on_file battles -> plain (fst b) -> plain (snd b) -> (1 <= v)%Z -> on_file (dput (key b) v battles).
Proof.
  intros (bs & f & -> & NB & HW & HF) P1 P2 Hv. destruct (in_dec pair_dec b bs) as [I|I].
  - exists bs, (fun b' => if pair_dec b' b then v else f b'). split; [|split; [exact NB|split; [exact HW|]]].
    + unfold counter. apply (dput_map key f pair_dec); auto. intros x y Hx Hy E. destruct (HW x Hx), (HW y Hy). now apply key_inj.
    + intros x Hx. destruct (pair_dec x b); auto.
  - exists (bs ++ [b])%list, (fun b' => if pair_dec b' b then v else f b'). split; [|split; [|split]].
    + rewrite dput_counter by auto. unfold counter. rewrite map_app. f_equal.
      * apply map_ext_in. intros x Hx. destruct (pair_dec x b) as [->|]; [contradiction|reflexivity].
      * cbn [map]. destruct (pair_dec b b); [reflexivity|contradiction].
    + apply (NoDup_Add (a := b) (l := bs)); [|split; auto]. rewrite <- (app_nil_r bs) at 1. apply Add_app.
    + intros x Hx. apply in_app_or in Hx as [Hx|[<-|[]]]; auto.
    + intros x Hx. destruct (pair_dec x b); [exact Hv|]. apply in_app_or in Hx as [Hx|[<-|[]]]; auto. contradiction.
Qed.
Lemma count_on_file battles b : on_file battles -> plain (fst b) -> plain (snd b) -> on_file (count_win (key b) battles).
Proof.
  intros H P1 P2. unfold count_win. apply put_on_file; auto. destruct H as (bs & f & -> & NB & HW & HF). destruct (in_dec pair_dec b bs) as [I|I].
  - unfold counter. rewrite dget_map by (auto; now apply key_NoDup). specialize (HF b I). lia.
  - rewrite dget_counter by auto. lia.
Qed.
Lemma round_on_file l atol battles : (forall z, In z l -> plain (snd z)) -> on_file battles -> on_file (record_battles (N := NumX) (lifted l) (Fin atol) battles).
Proof.
  intros HP. unfold record_battles.
  assert (K : forall s, In s (round_wins (N := NumX) (lifted l) (Fin atol)) -> exists b, s = key b /\ plain (fst b) /\ plain (snd b)).
  { intros s H. apply round_wins_in in H as (i & j & x & y & H1 & H2 & _ & _ & ->). exists (snd x, snd y). apply nth_error_In in H1, H2. split; [reflexivity|]. split; cbn [fst snd]; auto. }
  revert K battles. induction (round_wins (N := NumX) (lifted l) (Fin atol)) as [|s t IH]; intros K battles H; [exact H|]. cbn [fold_left]. apply IH; [intros; apply K; now right|].
  destruct (K s (or_introl eq_refl)) as (b & -> & P1 & P2). now apply count_on_file.
Qed.
(** Whatever rounds were played between contestants whose names have no '>', elo_from_win_counts rates the counter they left behind: one rating per contestant, 1500 on average. *)
Theorem C116_history_can_be_rated {G} pow10 (choices : list (string * Z) -> G -> nat * G) k limit g (rounds : list (list (R * string) * R)) :
  is_pow10 pow10 -> in_range choices -> 0 <= k -> (forall r z, In r rounds -> In z (fst r) -> plain (snd z)) ->
  let battles := fold_left (fun b r => record_battles (N := NumX) (lifted (fst r)) (Fin (snd r)) b) rounds [] in
  exists elo rest g' rt, elo_from_win_counts pow10 choices (Fin k) limit battles g = Ok (elo, rest, g') /\
    (forall x, In x (map fst elo) -> dget x elo = Some (Fin (rt x))) /\ rlist_sum (map rt (map fst elo)) = 1500 * INR (length elo).
Proof.
  intros HP HC Hk HR battles.
  assert (F : on_file battles).
  { unfold battles. assert (F0 : on_file []) by (exists [], (fun _ => 1%Z); split; [reflexivity|split; [constructor|split; intros b []]]). revert F0 HR. generalize (@nil (string * Z)). clear.
    induction rounds as [|r l IH]; intros b0 F0 HR; [exact F0|]. cbn [fold_left]. apply IH; [|intros; eapply HR; [right|]; eauto]. apply round_on_file; [|exact F0]. intros z Hz. apply (HR r z); [now left|exact Hz]. }
  destruct F as (bs & f & E & NB & HW & _). rewrite E.
  destruct (C116_ratings pow10 choices k limit bs f g HP HC HW NB) as (h & elo & g' & E1 & E2 & E3 & E4 & _ & E6 & _).
  exists elo, (counter bs (fun b => f b - Z.of_nat (count_occ pair_dec h b))%Z), g', (replay k h). split; [exact E1|]. split; [exact E4|].
  rewrite replay_sum by (auto; intros b Hb; split; apply E3; exists b; split; auto). now rewrite map_length.
Qed.

(** * C116: who is best (worst) in every round ends at 1500 or above (below) *)
From Coq Require Import Reals ZArith String Ascii List Lia Lra Psatz Arith Bool.
From Verif Require Import Num Numpy PyVal ListLemmas RMat Fin EloModel EloSpec Props_Elo Props_EloRounds.
Import ListNotations.
Local Open Scope string_scope.
Local Open Scope R_scope.
(** a counter that only records battles with property [P] *)
Definition on_file_only (P : string * string -> Prop) (battles : list (string * Z)) : Prop :=
  exists bs f, battles = counter bs f /\ NoDup bs /\ well_named bs /\ (forall b, In b bs -> P b).
Lemma put_only P battles b v : on_file_only P battles -> plain (fst b) -> plain (snd b) -> P b -> on_file_only P (dput (key b) v battles).
Proof.
  intros (bs & f & -> & NB & HW & HF) P1 P2 Hv. destruct (in_dec pair_dec b bs) as [I|I].
  - exists bs, (fun b' => if pair_dec b' b then v else f b'). split; [|auto].
    unfold counter. apply (dput_map key f pair_dec); auto. intros x y Hx Hy E. destruct (HW x Hx), (HW y Hy). now apply key_inj.
  - exists (bs ++ [b])%list, (fun b' => if pair_dec b' b then v else f b'). split; [|split; [|split]].
    + rewrite dput_counter by auto. unfold counter. rewrite map_app. f_equal.
      * apply map_ext_in. intros x Hx. destruct (pair_dec x b) as [->|]; [contradiction|reflexivity].
      * cbn [map]. destruct (pair_dec b b); [reflexivity|contradiction].
    + apply (NoDup_Add (a := b) (l := bs)); [|split; auto]. rewrite <- (app_nil_r bs) at 1. apply Add_app.
    + intros x Hx. apply in_app_or in Hx as [Hx|[<-|[]]]; auto.
    + intros x Hx. apply in_app_or in Hx as [Hx|[<-|[]]]; auto.
Qed.
Lemma round_only (P : string * string -> Prop) l atol battles : (forall z, In z l -> plain (snd z)) -> (forall x y, In x l -> In y l -> fst y + atol < fst x -> P (snd x, snd y)) ->
  on_file_only P battles -> on_file_only P (record_battles (N := NumX) (lifted l) (Fin atol) battles).
Proof.
  intros HP HQ. unfold record_battles.
  assert (K : forall s, In s (round_wins (N := NumX) (lifted l) (Fin atol)) -> exists b, s = key b /\ plain (fst b) /\ plain (snd b) /\ P b).
  { intros s H. apply round_wins_in in H as (i & j & x & y & H1 & H2 & _ & L & ->). exists (snd x, snd y). apply nth_error_In in H1, H2. split; [reflexivity|]. cbn [fst snd]. auto. }
  revert K battles. induction (round_wins (N := NumX) (lifted l) (Fin atol)) as [|s t IH]; intros K battles H; [exact H|]. cbn [fold_left]. apply IH; [intros; apply K; now right|].
  destruct (K s (or_introl eq_refl)) as (b & -> & P1 & P2 & P3). unfold count_win. now apply put_only.
Qed.
Lemma rounds_only (P : string * string -> Prop) (rounds : list (list (R * string) * R)) :
  (forall r z, In r rounds -> In z (fst r) -> plain (snd z)) -> (forall r x y, In r rounds -> In x (fst r) -> In y (fst r) -> fst y + snd r < fst x -> P (snd x, snd y)) ->
  on_file_only P (fold_left (fun b r => record_battles (N := NumX) (lifted (fst r)) (Fin (snd r)) b) rounds []).
Proof.
  assert (F0 : on_file_only P []) by (exists [], (fun _ => 1%Z); split; [reflexivity|split; [constructor|split; intros b []]]). revert F0. generalize (@nil (string * Z)).
  induction rounds as [|r l IH]; intros b0 F0 HR HQ; [exact F0|]. cbn [fold_left]. apply IH; [|intros; eapply HR; [right|]; eauto|intros; eapply HQ; [right|..]; eauto].
  apply round_only; [intros z Hz; apply (HR r z); [now left|exact Hz]|intros x y Hx Hy L; apply (HQ r x y); auto; now left|exact F0].
Qed.
(** [a] is never behind another contestant of its round by more than the tolerance *)
Definition never_beaten (a : string) (rounds : list (list (R * string) * R)) : Prop :=
  forall r x y, In r rounds -> In x (fst r) -> In y (fst r) -> snd y = a -> fst x <= fst y + snd r.
Definition never_wins (a : string) (rounds : list (list (R * string) * R)) : Prop :=
  forall r x y, In r rounds -> In x (fst r) -> In y (fst r) -> snd x = a -> fst x <= fst y + snd r.
(** Whatever rounds were played and in whatever order the battles are drawn: a rated contestant that never was behind in a round is rated 1500 or more, one that never was ahead 1500 or less. *)
Theorem C116_best_and_worst {G} pow10 (choices : list (string * Z) -> G -> nat * G) k limit g (rounds : list (list (R * string) * R)) :
  is_pow10 pow10 -> in_range choices -> 0 <= k -> (forall r z, In r rounds -> In z (fst r) -> plain (snd z)) ->
  let battles := fold_left (fun b r => record_battles (N := NumX) (lifted (fst r)) (Fin (snd r)) b) rounds [] in
  exists elo rest g', elo_from_win_counts pow10 choices (Fin k) limit battles g = Ok (elo, rest, g') /\
    (forall a v, never_beaten a rounds -> In a (map fst elo) -> dget a elo = Some v -> exists r, v = Fin r /\ 1500 <= r) /\
    (forall a v, never_wins a rounds -> In a (map fst elo) -> dget a elo = Some v -> exists r, v = Fin r /\ r <= 1500).
Proof.
  intros HP HC Hk HR battles.
  assert (F : on_file_only (fun b => (forall a, never_beaten a rounds -> snd b <> a) /\ (forall a, never_wins a rounds -> fst b <> a)) battles).
  { apply rounds_only; [exact HR|]. intros r x y Hr Hx Hy L. cbn [fst snd]. split; intros a Ha E; specialize (Ha r x y Hr Hx Hy E); lra. }
  destruct F as (bs & f & E & NB & HW & HB). rewrite E.
  destruct (C116_ratings pow10 choices k limit bs f g HP HC HW NB) as (h & elo & g' & E1 & E2 & E3 & E4 & _ & E6 & _).
  exists elo, (counter bs (fun b => f b - Z.of_nat (count_occ pair_dec h b))%Z), g'. split; [exact E1|]. split; intros a v Ha I D; rewrite (E4 a I) in D; injection D as <-; exists (replay k h a); (split; [reflexivity|]); unfold replay.
  - apply (fold_unbeaten k h a Hk) with (rt := fun _ => 1500). intros b Hb. apply HB; auto.
  - apply (fold_winless k h a Hk) with (rt := fun _ => 1500). intros b Hb. apply HB; auto.
Qed.
Example C116_best_witness : let rounds := [([(3, "ann"); (1, "bob")], 1 / 2); ([(2, "bob"); (2, "ann"); (1, "cat")], 1 / 2)] in never_beaten "ann" rounds /\ never_wins "cat" rounds /\ (forall r z, In r rounds -> In z (fst r) -> plain (snd z)).
Proof.
  cbv zeta. split; [|split].
  - intros r x y [<-|[<-|[]]]; cbn [fst snd In]; intros Hx Hy E; repeat destruct Hx as [<-|Hx]; try destruct Hx; repeat destruct Hy as [<-|Hy]; try destruct Hy; cbn [fst snd] in *; try discriminate; lra.
  - intros r x y [<-|[<-|[]]]; cbn [fst snd In]; intros Hx Hy E; repeat destruct Hx as [<-|Hx]; try destruct Hx; repeat destruct Hy as [<-|Hy]; try destruct Hy; cbn [fst snd] in *; try discriminate; lra.
  - intros r z [<-|[<-|[]]]; cbn [fst snd In]; intros Hz; repeat destruct Hz as [<-|Hz]; try destruct Hz; cbn; repeat split; discriminate.
Qed.
(** A round is transitive and never records both results of a pair (tolerance not negative, names distinct). *)
Theorem C116_round_is_transitive l atol a b c : NoDup (map snd l) -> (forall z, In z l -> plain (snd z)) -> 0 <= atol ->
  let wins := round_wins (N := NumX) (lifted l) (Fin atol) in plain a -> plain b -> plain c ->
  (In (key (a, b)) wins -> In (key (b, c)) wins -> In (key (a, c)) wins) /\ ~ (In (key (a, b)) wins /\ In (key (b, a)) wins).
Proof.
  intros ND HP Ha wins Pa Pb Pc.
  assert (W : forall u v, plain u -> plain v -> In (key (u, v)) wins -> exists i j x y, nth_error l i = Some x /\ nth_error l j = Some y /\ snd x = u /\ snd y = v /\ fst y + atol < fst x).
  { intros u v Pu Pv H. apply round_wins_in in H as (i & j & x & y & H1 & H2 & _ & H4 & H5). apply key_inj in H5; cbn [fst snd]; eauto using nth_error_In. injection H5 as -> ->. exists i, j, x, y. auto. }
  assert (U : forall i j x y, nth_error l i = Some x -> nth_error l j = Some y -> snd x = snd y -> x = y).
  { intros i j x y H1 H2 E. assert (i = j) as ->; [|congruence]. apply (proj1 (NoDup_nth_error (map snd l)) ND); [rewrite map_length; apply nth_error_Some; congruence|]. rewrite !nth_error_map, H1, H2. cbn. now rewrite E. }
  split.
  - intros H1 H2. apply W in H1 as (i & j & x & y & A1 & A2 & <- & E & A5); auto. apply W in H2 as (i' & j' & y' & z & B1 & B2 & E' & <- & B5); auto.
    assert (y' = y) as -> by (eapply U; eauto; congruence). apply round_wins_in. exists i, j', x, z. repeat split; auto; [|lra]. intros ->. assert (x = z) as -> by congruence. lra.
  - intros [H1 H2]. apply W in H1 as (i & j & x & y & A1 & A2 & E1 & E2 & A5); auto. apply W in H2 as (i' & j' & y' & x' & B1 & B2 & E3 & E4 & B5); auto.
    assert (y' = y) as -> by (eapply U; eauto; congruence). assert (x' = x) as -> by (eapply U; eauto; congruence). lra.
Qed.

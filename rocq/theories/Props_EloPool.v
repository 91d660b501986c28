(** * C116: pooling result files *)
From Coq Require Import Reals ZArith String Ascii List Lia Lra Psatz Arith Bool.
From Verif Require Import Num Numpy PyVal ListLemmas RMat Fin EloModel EloSpec Props_Elo Props_EloRounds.
Import ListNotations.
Local Open Scope string_scope.
Local Open Scope R_scope.
(** ** Pooling the result files *)
Lemma get_update k new : NoDup (map fst new) -> forall data, dget k (counter_update data new) =
  match dget k new with Some c => Some (c + wins_of (dget k data))%Z | None => dget k data end.
Proof.
  unfold counter_update. induction new as [|[s c] l IH]; [reflexivity|]. cbn [map fst]. intros ND data. apply NoDup_cons_iff in ND as [N1 N2]. cbn [fold_left fst snd dget]. rewrite IH by exact N2. rewrite dget_dput.
  destruct (string_dec k s) as [->|D].
  - rewrite String.eqb_refl. assert (Z0 : dget s l = None). { clear -N1. induction l as [|[u v] l IH]; [reflexivity|]. cbn [dget]. destruct (String.eqb_spec s u) as [->|_]; [exfalso; apply N1; now left|]. apply IH. intros H. apply N1. now right. }
    rewrite Z0. reflexivity.
  - destruct (String.eqb_spec k s) as [->|_]; [contradiction|reflexivity].
Qed.
(** the count of a key in one file; a file that cannot be read has none *)
Definition in_file (k : string) (file : option (list (string * Z))) : option Z := match file with Some l => dget k l | None => None end.
Fixpoint pooled (k : string) (files : list (option (list (string * Z)))) : Z := match files with [] => 0%Z | a :: l => (wins_of (in_file k a) + pooled k l)%Z end.
(** load_win_data adds the counts of the files that can be read, so their order does not matter; a key is there when it is in one of them *)
Theorem C116_files_are_pooled k files : (forall l, In (Some l) files -> NoDup (map fst l)) ->
  dget k (load_win_data files) = if existsb (fun a => match in_file k a with Some _ => true | None => false end) files then Some (pooled k files) else None.
Proof.
  intros H. unfold load_win_data.
  assert (G : forall data, dget k (fold_left (fun data file => match file with Some new_data => counter_update data new_data | None => data end) files data) =
    if existsb (fun a => match in_file k a with Some _ => true | None => false end) files then Some (pooled k files + wins_of (dget k data))%Z else dget k data).
  { induction files as [|a l IH]; [reflexivity|]. intros data. cbn [fold_left existsb pooled]. rewrite IH by (intros; apply H; now right). destruct a as [new|]; cbn [in_file].
    - rewrite get_update by (apply H; now left). destruct (dget k new) as [c|]; cbn [wins_of orb]; [|destruct (existsb _ l); f_equal; lia].
      destruct (existsb _ l) eqn:E; [f_equal; lia|]. f_equal.
      assert (pooled k l = 0%Z) as ->; [|lia]. clear -E. induction l as [|a l IH]; [reflexivity|]. cbn [existsb pooled] in *. apply orb_false_iff in E as [E1 E2]. destruct (in_file k a); [discriminate|]. cbn [wins_of]. now rewrite IH.
    - cbn [wins_of orb]. destruct (existsb _ l); f_equal; lia. }
  rewrite G. cbn [dget wins_of]. now rewrite Z.add_0_r.
Qed.
(** files that rounds have left behind can be pooled and rated *)
Theorem C116_pool_can_be_rated {G} pow10 (choices : list (string * Z) -> G -> nat * G) k limit g files :
  is_pow10 pow10 -> in_range choices -> 0 <= k -> (forall l, In (Some l) files -> on_file l) ->
  exists elo rest g' rt, elo_from_win_counts pow10 choices (Fin k) limit (load_win_data files) g = Ok (elo, rest, g') /\
    (forall x, In x (map fst elo) -> dget x elo = Some (Fin (rt x))) /\ rlist_sum (map rt (map fst elo)) = 1500 * INR (length elo).
Proof.
  intros HP HC Hk HF.
  assert (F : on_file (load_win_data files)).
  { unfold load_win_data. assert (F0 : on_file []) by (exists [], (fun _ => 1%Z); split; [reflexivity|split; [constructor|split; intros b []]]). revert F0 HF. generalize (@nil (string * Z)). clear.
    induction files as [|a l IH]; intros d F0 HF; [exact F0|]. cbn [fold_left]. apply IH; [|intros; apply HF; now right]. destruct a as [new|]; [|exact F0]. destruct (HF new (or_introl eq_refl)) as (bs & f & -> & NB & HW & H1). clear - F0 HW H1.
    unfold counter_update, counter. revert d F0. induction bs as [|b bs IHb]; intros d F0; [exact F0|]. cbn [map fold_left fst snd]. apply IHb; [intros x Hx; apply HW; now right|intros; apply H1; now right|].
    destruct (HW b (or_introl eq_refl)) as [P1 P2]. apply put_on_file; auto. pose proof (H1 b (or_introl eq_refl)). enough (0 <= match dget (key b) d with Some c => c | None => 0 end)%Z by lia. clear - F0 P1 P2.
    destruct F0 as (bs & f & -> & NB & HW & HF). destruct (in_dec pair_dec b bs) as [I|I].
    - unfold counter. rewrite dget_map by (auto; now apply key_NoDup). specialize (HF b I). lia.
    - rewrite dget_counter by auto. lia. }
  destruct F as (bs & f & E & NB & HW & _). rewrite E.
  destruct (C116_ratings pow10 choices k limit bs f g HP HC HW NB) as (h & elo & g' & E1 & E2 & E3 & E4 & _ & E6 & _).
  exists elo, (counter bs (fun b => f b - Z.of_nat (count_occ pair_dec h b))%Z), g', (replay k h). split; [exact E1|]. split; [exact E4|].
  rewrite replay_sum by (auto; intros b Hb; split; apply E3; exists b; split; auto). now rewrite map_length.
Qed.
Example C116_pool_witness : on_file [("ann>bob", 2%Z)] /\ load_win_data [Some [("ann>bob", 2%Z)]; None; Some [("bob>ann", 1%Z); ("ann>bob", 3%Z)]] = [("ann>bob", 5%Z); ("bob>ann", 1%Z)].
Proof.
  split; [|reflexivity]. exists [("ann", "bob")], (fun _ => 2%Z). split; [reflexivity|]. split; [repeat constructor; intros []|]. split; [|intros; lia]. intros b [<-|[]]. cbn. repeat split; discriminate.
Qed.

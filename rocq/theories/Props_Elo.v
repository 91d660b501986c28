(** * C116: Elo ratings of the battles *)
From Coq Require Import Reals ZArith String Ascii List Lia Lra Psatz Arith Bool.
From Verif Require Import Num Numpy PyVal ListLemmas RMat Fin EloModel EloSpec.
Import ListNotations.
Local Open Scope string_scope.
Local Open Scope R_scope.

(** the law of [10 ** x] on finite reals *)
Definition is_pow10 (f : NumX -> NumX) : Prop := forall x, f (Fin x) = Fin (Rpower 10 x).
Lemma pow10_pos x : 0 < Rpower 10 x. Proof. apply exp_pos. Qed.
Lemma chance_range d : 0 <= win_chance d <= 1.
Proof.
  unfold win_chance, logistic. destruct (Rlt_dec 3200 d); [lra|]. destruct (Rlt_dec d (-3200)); [lra|]. pose proof (pow10_pos (d / 400)). split.
  - apply Rlt_le, Rdiv_lt_0_compat; lra.
  - apply Rmult_le_reg_r with (1 + Rpower 10 (d / 400)); [lra|]. unfold Rdiv. rewrite Rmult_assoc, Rinv_l by lra. lra.
Qed.
Lemma logistic_sym d : logistic d + logistic (- d) = 1.
Proof.
  unfold logistic. replace (- d / 400) with (- (d / 400)) by field. rewrite Rpower_Ropp. pose proof (pow10_pos (d / 400)). set (q := Rpower 10 (d / 400)) in *. field. split; lra.
Qed.
Lemma pow10_mono x y : x <= y -> Rpower 10 x <= Rpower 10 y.
Proof. intros H. destruct (Req_dec x y) as [->|D]; [lra|]. left. apply Rpower_lt; lra. Qed.
Lemma logistic_mono a b : a <= b -> logistic b <= logistic a.
Proof.
  intros H. unfold logistic. pose proof (pow10_pos (a / 400)). pose proof (pow10_mono (a / 400) (b / 400) ltac:(lra)). unfold Rdiv at 1 3. apply Rmult_le_compat_l; [lra|]. apply Rinv_le_contravar; lra.
Qed.
Lemma pow10_8 : Rpower 10 8 = 10 ^ 8.
Proof. replace 8 with (INR 8) by (cbn; lra). apply Rpower_pow. lra. Qed.
Lemma logistic_tail d : 3200 < d -> 0 < logistic d < 1 / 10 ^ 8.
Proof.
  intros H. unfold logistic. pose proof (pow10_mono 8 (d / 400) ltac:(lra)) as M. rewrite pow10_8 in M. split.
  - apply Rdiv_lt_0_compat; [lra|]. pose proof (pow10_pos (d / 400)). lra.
  - unfold Rdiv at 1 3. apply Rmult_lt_compat_l; [lra|]. apply Rinv_lt_contravar; [|lra]. apply Rmult_lt_0_compat; lra.
Qed.
Lemma elo_expected_fin pow10 d : is_pow10 pow10 -> elo_expected pow10 (Fin d) (nofZ 400) = Ok (Fin (win_chance d)).
Proof.
  intros HP. unfold elo_expected. rewrite nofZ_fin, py_div_fin by lra. cbn [bind]. rewrite !nofZ_fin, !ltb_fin. unfold win_chance, logistic.
  destruct (Rltb_spec 8 (d / 400)), (Rlt_dec 3200 d); try lra; [reflexivity|].
  destruct (Rltb_spec (d / 400) (IZR (-8))), (Rlt_dec d (-3200)); try lra; [reflexivity|].
  rewrite HP, n1_fin, add_fin. pose proof (pow10_pos (d / 400)). now rewrite py_div_fin by lra.
Qed.
(** elo_expected at the default factor: the logistic chance of scoring, to within 1e-8; complementary for the two sides, never increasing in the disadvantage, one half between equals. *)
Theorem C116_expected_points pow10 d : is_pow10 pow10 ->
  exists e e', elo_expected pow10 (Fin d) (nofZ 400) = Ok (Fin e) /\ elo_expected pow10 (Fin (- d)) (nofZ 400) = Ok (Fin e') /\
    0 <= e <= 1 /\ e + e' = 1 /\ Rabs (e - logistic d) < 1 / 10 ^ 8 /\ (d = 0 -> e = 1 / 2) /\
    (forall d2 e2, d <= d2 -> elo_expected pow10 (Fin d2) (nofZ 400) = Ok (Fin e2) -> e2 <= e).
Proof.
  intros HP. exists (win_chance d), (win_chance (- d)). rewrite !elo_expected_fin by exact HP. split; [reflexivity|]. split; [reflexivity|]. split; [apply chance_range|]. split; [|split; [|split]].
  - pose proof (logistic_sym d). unfold win_chance. destruct (Rlt_dec 3200 d), (Rlt_dec d (-3200)), (Rlt_dec 3200 (- d)), (Rlt_dec (- d) (-3200)); lra.
  - unfold win_chance. destruct (Rlt_dec 3200 d) as [H|H].
    + pose proof (logistic_tail d H). rewrite Rabs_left; lra.
    + destruct (Rlt_dec d (-3200)) as [H2|H2].
      * pose proof (logistic_tail (- d) ltac:(lra)). pose proof (logistic_sym d). rewrite Rabs_right; lra.
      * rewrite Rminus_eq_0, Rabs_R0. lra.
  - intros ->. unfold win_chance, logistic. destruct (Rlt_dec 3200 0); [lra|]. destruct (Rlt_dec 0 (-3200)); [lra|]. replace (0 / 400) with 0 by lra. rewrite Rpower_O by lra. lra.
  - intros d2 e2 H. rewrite elo_expected_fin by exact HP. intros E. injection E as <-.
    pose proof (chance_range d) as R1. pose proof (chance_range d2) as R2. pose proof (logistic_mono d d2 H). unfold win_chance in *. repeat destruct (Rlt_dec _ _); lra.
Qed.
(** elo_change: what one side gains the other loses; the winner gains between 0 and k. *)
Theorem C116_zero_sum pow10 white black points k : is_pow10 pow10 ->
  exists a b, elo_change pow10 (Fin white) (Fin black) (Fin points) (Fin k) (nofZ 400) = Ok (Fin a, Fin b) /\
    a + b = 0 /\ a = k * (points - win_chance (black - white)) /\ (0 <= k -> 0 <= points <= 1 -> Rabs a <= k) /\
    (0 <= k -> points = 1 -> 0 <= a) /\ (0 <= k -> points = 0 -> a <= 0).
Proof.
  intros HP. unfold elo_change. rewrite sub_fin, elo_expected_fin by exact HP. cbn [bind]. rewrite sub_fin, opp_fin, !mul_fin. eexists _, _. split; [reflexivity|].
  pose proof (chance_range (black - white)) as Q. set (c := win_chance (black - white)) in *. split; [ring|]. split; [reflexivity|]. split; [|split].
  - intros Hk Hp. apply Rabs_le. split; nra.
  - intros Hk ->. apply Rmult_le_pos; lra.
  - intros Hk ->. nra.
Qed.
(** ** Keys and dicts *)
Lemma split_plain s : plain s -> split_gt s = [s].
Proof.
  induction s as [|c s IH]; [reflexivity|]. intros [H1 H2]. cbn [split_gt]. destruct (Ascii.eqb_spec c ">") as [E|_]; [contradiction H1|]. rewrite IH by exact H2. reflexivity.
Qed.
Lemma split_key b : plain (fst b) -> plain (snd b) -> split_gt (key b) = [fst b; snd b].
Proof.
  intros H1 H2. unfold key. induction (fst b) as [|c s IH]; [cbn; now rewrite split_plain|]. destruct H1 as [N1 N2]. cbn [append split_gt]. destruct (Ascii.eqb_spec c ">") as [E|_]; [contradiction N1|]. cbn [append] in IH. rewrite IH by exact N2. reflexivity.
Qed.
Lemma key_inj b b' : plain (fst b) -> plain (snd b) -> plain (fst b') -> plain (snd b') -> key b = key b' -> b = b'.
Proof. intros H1 H2 H3 H4 E. pose proof (f_equal split_gt E) as S. rewrite !split_key in S by auto. injection S as A B. destruct b, b'; cbn in *; congruence. Qed.
Lemma dget_map {A B} (f : A -> string) (g : A -> B) l : NoDup (map f l) -> forall a, In a l -> dget (f a) (map (fun a => (f a, g a)) l) = Some (g a).
Proof.
  induction l as [|a l IH]; [intros _ a []|]. cbn [map dget]. intros ND b [<-|H]; [now rewrite String.eqb_refl|]. apply NoDup_cons_iff in ND as [N1 N2].
  destruct (String.eqb_spec (f b) (f a)) as [E|_]; [exfalso; apply N1; rewrite <- E; now apply in_map|]. now apply IH.
Qed.
Lemma dput_map {A B} (f : A -> string) (g : A -> B) (dec : forall a b : A, {a = b} + {a <> b}) l v : (forall a b, In a l -> In b l -> f a = f b -> a = b) -> NoDup l -> forall a, In a l ->
  dput (f a) v (map (fun a => (f a, g a)) l) = map (fun b => (f b, if dec b a then v else g b)) l.
Proof.
  induction l as [|x l IH]; [intros _ _ a []|]. intros Hi ND a H. apply NoDup_cons_iff in ND as [N1 N2]. cbn [map dput]. destruct (String.eqb_spec (f a) (f x)) as [E|D].
  - assert (a = x) as -> by (apply Hi; [exact H|now left|exact E]). destruct (dec x x) as [_|N]; [|contradiction]. f_equal. apply map_ext_in. intros b Hb. destruct (dec b x) as [->|_]; [contradiction|reflexivity].
  - destruct H as [->|H]; [contradiction|]. destruct (dec x a) as [->|_]; [contradiction|]. f_equal. apply IH; auto. intros; apply Hi; auto; now right.
Qed.

(** ** The loop *)
Definition elos (names : list string) (rt : string -> R) : list (string * NumX) := map (fun x => (x, Fin (rt x) : NumX)) names.
Lemma cget_elos names rt x : NoDup names -> In x names -> cget x (elos names rt) = Fin (rt x).
Proof. intros ND H. unfold cget, elos. now rewrite (dget_map (fun x => x) (fun x => Fin (rt x) : NumX)) by (rewrite ?map_id; auto). Qed.
Lemma dput_elos names rt x v : NoDup names -> In x names -> dput x (Fin v : NumX) (elos names rt) = elos names (fun y => if string_dec y x then v else rt y).
Proof.
  intros ND H. unfold elos. rewrite (dput_map (fun x => x) (fun x => Fin (rt x) : NumX) string_dec) by auto. apply map_ext. intros b. destruct (string_dec b x); reflexivity.
Qed.
Lemma total_dec bs f b : NoDup bs -> In b bs -> (1 <= f b)%Z -> total bs f = S (total bs (fun b' => if pair_dec b' b then f b - 1 else f b')%Z).
Proof.
  intros ND H Hf. induction bs as [|a l IH]; [destruct H|]. apply NoDup_cons_iff in ND as [N1 N2]. cbn [total]. destruct (pair_dec a b) as [->|D].
  - assert (E : total l (fun b' => if pair_dec b' b then f b - 1 else f b')%Z = total l f).
    { clear IH N2 H. induction l as [|c l IH]; [reflexivity|]. cbn [total]. rewrite IH by (intros G; apply N1; now right). destruct (pair_dec c b) as [->|_]; [exfalso; apply N1; now left|reflexivity]. }
    rewrite E. lia.
  - destruct H as [->|H]; [contradiction|]. rewrite IH by auto. lia.
Qed.
Lemma total_0 bs f : total bs f = O -> forall b, In b bs -> (f b <= 0)%Z.
Proof. induction bs as [|a l IH]; [intros _ b []|]. cbn [total]. intros H b [<-|Hb]; [lia|]. apply IH; auto. lia. Qed.
Lemma remaining_none bs f : remaining_battles (counter bs f) = [] -> total bs f = O.
Proof.
  unfold remaining_battles, counter. induction bs as [|a l IH]; [reflexivity|]. cbn [map filter snd total]. destruct (Z.leb_spec 1 (f a)); [discriminate|]. intros E. rewrite IH by exact E. lia.
Qed.
Lemma remaining_in bs f e : In e (remaining_battles (counter bs f)) -> exists b, In b bs /\ e = (key b, f b) /\ (1 <= f b)%Z.
Proof.
  unfold remaining_battles, counter. rewrite filter_In, in_map_iff. intros [(b & <- & Hb) H]. exists b. split; [exact Hb|]. split; [reflexivity|]. now apply Z.leb_le.
Qed.
Definition in_range {G} (choices : list (string * Z) -> G -> nat * G) : Prop := forall l g, l <> [] -> (fst (choices l g) < length l)%nat.
Definition well_named (bs : list (string * string)) : Prop := forall b, In b bs -> plain (fst b) /\ plain (snd b).
Lemma elo_loop_spec {G} pow10 (choices : list (string * Z) -> G -> nat * G) k names bs : is_pow10 pow10 -> in_range choices -> well_named bs -> NoDup bs -> NoDup names ->
  (forall b, In b bs -> In (fst b) names /\ In (snd b) names) ->
  forall left f rt g, exists h g', elo_loop pow10 choices (Fin k) left (counter bs f) (elos names rt) g =
      Ok (elos names (fold_left (play k) h rt), counter bs (fun b => f b - Z.of_nat (count_occ pair_dec h b))%Z, g') /\
    length h = Nat.min left (total bs f) /\ (forall b, In b h -> In b bs) /\ (forall b, In b bs -> (count_occ pair_dec h b <= Z.to_nat (f b))%nat).
Proof.
  intros HP HC HW NB NN HN. induction left as [|left IH]; intros f rt g.
  - exists [], g. cbn [elo_loop fold_left count_occ length Nat.min]. split; [|split; [reflexivity|split; [intros b []|lia]]].
    unfold counter. do 3 f_equal. apply map_ext. intros b. f_equal. lia.
  - cbn [elo_loop]. destruct (remaining_battles (counter bs f)) as [|e0 rem] eqn:Er.
    + exists [], g. rewrite (remaining_none _ _ Er). cbn [fold_left count_occ length Nat.min]. split; [|split; [reflexivity|split; [intros b []|lia]]].
      unfold counter. do 3 f_equal. apply map_ext. intros b. f_equal. lia.
    + rewrite <- Er. set (l := remaining_battles (counter bs f)) in *. assert (L0 : l <> []) by (rewrite Er; discriminate). pose proof (HC l g L0) as HI. destruct (choices l g) as [i g1] eqn:Ec. cbn [fst] in HI.
      unfold at_index. destruct (nth_error l i) as [e|] eqn:En; [|apply nth_error_None in En; lia]. cbn [bind].
      destruct (remaining_in bs f e (nth_error_In _ _ En)) as (b & Hb & -> & Hf). destruct (HW b Hb) as [P1 P2]. destruct (HN b Hb) as [N1 N2]. cbn [fst snd]. rewrite split_key by auto.
      rewrite !cget_elos by auto. unfold elo_change. rewrite sub_fin, elo_expected_fin by exact HP. cbn [bind fst snd]. rewrite n1_fin, sub_fin, opp_fin, !mul_fin, add_fin, dput_elos by auto. rewrite cget_elos by auto. rewrite add_fin, dput_elos by auto.
      unfold counter at 1. rewrite (dput_map key f pair_dec) by (auto; intros x y Hx Hy; apply key_inj; now apply HW).
      set (st := k * (1 - win_chance (rt (snd b) - rt (fst b)))). set (f1 := fun b' => if pair_dec b' b then (f b - 1)%Z else f b').
      change (map (fun b0 => (key b0, if pair_dec b0 b then (f b - 1)%Z else f b0)) bs) with (counter bs f1).
      replace (elos names _) with (elos names (play k rt b)).
      2:{ unfold elos. apply map_ext. intros x. unfold play. fold st. do 2 f_equal. destruct (string_dec x (snd b)) as [->|D2]; [|destruct (string_dec x (fst b)) as [->|D1]; ring].
          destruct (string_dec (snd b) (fst b)) as [E|]; unfold st; [rewrite E|]; ring. }
      destruct (IH f1 (play k rt b) g1) as (h & g' & E1 & E2 & E3 & E4). exists (b :: h), g'. rewrite E1. split; [|split; [|split]].
      * cbn [fold_left]. unfold counter. do 3 f_equal. apply map_ext. intros b'. f_equal. unfold f1. cbn [count_occ]. destruct (pair_dec b' b) as [->|D].
        -- destruct (pair_dec b b); [lia|contradiction].
        -- destruct (pair_dec b b') as [->|_]; [contradiction|]. reflexivity.
      * cbn [length]. rewrite E2, (total_dec bs f b NB Hb Hf). fold f1. reflexivity.
      * intros x [<-|Hx]; auto.
      * intros x Hx. specialize (E4 x Hx). unfold f1 in E4. cbn [count_occ]. destruct (pair_dec x b) as [->|D].
        -- destruct (pair_dec b b); [lia|contradiction].
        -- destruct (pair_dec b x) as [->|_]; [contradiction|]. exact E4.
Qed.
Lemma contestants_ok bs f : well_named bs -> contestants (counter bs f) = Ok (nodup string_dec (map fst bs ++ map snd bs)%list).
Proof.
  intros HW. unfold contestants, counter.
  assert (H : mapM (fun b : string * Z => at_index (split_gt (fst b)) 0) (map (fun b => (key b, f b)) bs) = Ok (map fst bs) /\
              mapM (fun b : string * Z => at_index (split_gt (fst b)) 1) (map (fun b => (key b, f b)) bs) = Ok (map snd bs)).
  { induction bs as [|b l IH]; [split; reflexivity|]. destruct IH as [I1 I2]; [intros x Hx; apply HW; now right|]. destruct (HW b) as [P1 P2]; [now left|].
    cbn [map mapM fst]. rewrite !split_key by auto. cbn [at_index nth_error bind]. rewrite I1, I2. split; reflexivity. }
  destruct H as [H1 H2]. rewrite H1. cbn [bind]. rewrite H2. reflexivity.
Qed.
(** elo_from_win_counts, whatever order chance draws the battles in: the ratings are those of playing some sequence of recorded battles from 1500 each; no battle is played more often than recorded, and all of them are when there are at most [limit] (50000).  The caller's counter is used up on the way. *)
Theorem C116_ratings {G} pow10 (choices : list (string * Z) -> G -> nat * G) k limit bs f g :
  is_pow10 pow10 -> in_range choices -> well_named bs -> NoDup bs ->
  exists h elo g', elo_from_win_counts pow10 choices (Fin k) limit (counter bs f) g = Ok (elo, counter bs (fun b => f b - Z.of_nat (count_occ pair_dec h b))%Z, g') /\
    NoDup (map fst elo) /\ (forall x, In x (map fst elo) <-> takes_part bs x) /\ (forall x, In x (map fst elo) -> dget x elo = Some (Fin (replay k h x))) /\
    length h = Nat.min limit (total bs f) /\ (forall b, In b h -> In b bs) /\ (forall b, In b bs -> (count_occ pair_dec h b <= Z.to_nat (f b))%nat) /\
    ((total bs f <= limit)%nat -> forall b, In b bs -> count_occ pair_dec h b = Z.to_nat (f b)).
Proof.
  intros HP HC HW NB. set (names := nodup string_dec (map fst bs ++ map snd bs)%list).
  assert (NN : NoDup names) by apply NoDup_nodup.
  assert (IN : forall x, In x names <-> takes_part bs x).
  { intros x. unfold names. rewrite nodup_In, in_app_iff, !in_map_iff. split.
    - intros [(b & <- & H)|(b & <- & H)]; exists b; auto.
    - intros (b & H & [->| ->]); [left|right]; exists b; auto. }
  assert (HN : forall b, In b bs -> In (fst b) names /\ In (snd b) names) by (intros b Hb; split; apply IN; exists b; auto).
  destruct (elo_loop_spec pow10 choices k names bs HP HC HW NB NN HN limit f (fun _ => 1500) g) as (h & g' & E1 & E2 & E3 & E4).
  exists h, (elos names (replay k h)), g'. assert (MF : map fst (elos names (replay k h)) = names) by (unfold elos; rewrite map_map; apply map_id). rewrite MF.
  split; [|split; [exact NN|split; [exact IN|split; [|split; [exact E2|split; [exact E3|split; [exact E4|]]]]]]].
  - unfold elo_from_win_counts. rewrite contestants_ok by exact HW. cbn [bind]. fold names. exact E1.
  - intros x Hx. unfold elos. now rewrite (dget_map (fun x => x) (fun x => Fin (replay k h x) : NumX)) by (rewrite ?map_id; auto).
  - intros HT b Hb. rewrite Nat.min_r in E2 by exact HT. revert E2 E3 E4 b Hb. clear - NB. revert h. induction bs as [|a l IH]; [intros h _ _ _ b []|]. intros h E2 E3 E4.
    apply NoDup_cons_iff in NB as [N1 N2]. set (h' := filter (fun b => if pair_dec b a then false else true) h).
    assert (LH : length h = (count_occ pair_dec h a + length h')%nat).
    { unfold h'. clear. induction h as [|x h IH]; [reflexivity|]. cbn [length count_occ filter]. destruct (pair_dec x a); cbn [length]; lia. }
    assert (CH : forall b, b <> a -> count_occ pair_dec h' b = count_occ pair_dec h b).
    { unfold h'. clear. intros b Hb. induction h as [|x h IH]; [reflexivity|]. cbn [filter count_occ]. destruct (pair_dec x a) as [->|D].
      - destruct (pair_dec a b) as [E|_]; [now subst|exact IH].
      - cbn [count_occ]. rewrite IH. reflexivity. }
    assert (SUB : forall l' : list (string * string), NoDup l' -> forall h0 : list (string * string), (forall b, In b h0 -> In b l') -> (forall b, In b l' -> (count_occ pair_dec h0 b <= Z.to_nat (f b))%nat) -> (length h0 <= total l' f)%nat).
    { clear. induction l' as [|c l' IH]; intros ND h0 H1 H2.
      - destruct h0 as [|x h0]; [cbn; lia|]. destruct (H1 x). now left.
      - apply NoDup_cons_iff in ND as [N1 N2]. cbn [total]. pose proof (H2 c (or_introl eq_refl)) as H3. set (h1 := filter (fun b => if pair_dec b c then false else true) h0).
        assert (LH : length h0 = (count_occ pair_dec h0 c + length h1)%nat).
        { unfold h1. clear. induction h0 as [|x h IH]; [reflexivity|]. cbn [length count_occ filter]. destruct (pair_dec x c); cbn [length]; lia. }
        assert (length h1 <= total l' f)%nat; [|lia]. apply IH; auto.
        + intros b Hb. unfold h1 in Hb. apply filter_In in Hb as [Hb Hc]. destruct (H1 b Hb) as [->|]; [destruct (pair_dec b b); [discriminate|contradiction]|assumption].
        + intros b Hb. assert (D : b <> c) by (intros ->; contradiction). replace (count_occ pair_dec h1 b) with (count_occ pair_dec h0 b); [apply H2; now right|].
          unfold h1. clear - D. induction h0 as [|x h IH]; [reflexivity|]. cbn [filter count_occ]. destruct (pair_dec x c) as [->|D2].
          * destruct (pair_dec c b) as [E|_]; [now subst|exact IH].
          * cbn [count_occ]. rewrite IH. reflexivity. }
    assert (I1 : forall b, In b h' -> In b l).
    { intros b Hb. unfold h' in Hb. apply filter_In in Hb as [Hb Hc]. destruct (E3 b Hb) as [->|]; [destruct (pair_dec b b); [discriminate|contradiction]|assumption]. }
    assert (I2 : forall b, In b l -> (count_occ pair_dec h' b <= Z.to_nat (f b))%nat).
    { intros b Hb. rewrite CH by (intros ->; contradiction). apply E4. now right. }
    pose proof (SUB l N2 h' I1 I2) as LE. pose proof (E4 a (or_introl eq_refl)) as Ha. cbn [total] in E2. intros b [<-|Hb]; [lia|].
    rewrite <- CH by (intros ->; contradiction). apply IH; auto. lia.
Qed.
(** ** Consequences, for whatever sequence of battles is played *)
Fixpoint rlist_sum (l : list R) : R := match l with [] => 0 | x :: l' => x + rlist_sum l' end.
Lemma sum_at names (w : string) s : NoDup names -> In w names -> rlist_sum (map (fun x => if string_dec x w then s else 0) names) = s.
Proof.
  assert (Z : forall l, ~ In w l -> rlist_sum (map (fun x => if string_dec x w then s else 0) l) = 0).
  { induction l as [|x l IH]; [reflexivity|]. intros H. cbn [map rlist_sum]. destruct (string_dec x w) as [->|_]; [exfalso; apply H; now left|]. rewrite IH by (intros G; apply H; now right). ring. }
  induction names as [|x l IH]; [intros _ []|]. intros ND H. apply NoDup_cons_iff in ND as [N1 N2]. cbn [map rlist_sum]. destruct (string_dec x w) as [->|D].
  - rewrite Z by exact N1. ring.
  - destruct H as [->|H]; [contradiction|]. rewrite IH by auto. ring.
Qed.
Lemma sum_plus names (f g : string -> R) : rlist_sum (map (fun x => f x + g x) names) = rlist_sum (map f names) + rlist_sum (map g names).
Proof. induction names as [|x l IH]; cbn [map rlist_sum]; [ring|rewrite IH; ring]. Qed.
Lemma sum_opp names (f : string -> R) : rlist_sum (map (fun x => - f x) names) = - rlist_sum (map f names).
Proof. induction names as [|x l IH]; cbn [map rlist_sum]; [ring|rewrite IH; ring]. Qed.
Lemma play_sum k rt b names : NoDup names -> In (fst b) names -> In (snd b) names -> rlist_sum (map (play k rt b) names) = rlist_sum (map rt names).
Proof.
  intros ND H1 H2. unfold play. set (s := k * (1 - win_chance (rt (snd b) - rt (fst b)))).
  rewrite (map_ext _ (fun x => (rt x + (if string_dec x (fst b) then s else 0)) + - (if string_dec x (snd b) then s else 0))) by (intros; ring).
  rewrite (sum_plus names (fun x => rt x + (if string_dec x (fst b) then s else 0)) (fun x => - (if string_dec x (snd b) then s else 0))), sum_plus, (sum_opp names (fun x => if string_dec x (snd b) then s else 0)), !sum_at by auto. ring.
Qed.
Lemma replay_sum k h names : NoDup names -> (forall b, In b h -> In (fst b) names /\ In (snd b) names) -> rlist_sum (map (replay k h) names) = 1500 * INR (length names).
Proof.
  intros ND H. unfold replay. transitivity (rlist_sum (map (fun _ : string => 1500) names)).
  - revert H. generalize (fun _ : string => 1500). induction h as [|b h IH]; [reflexivity|]. intros rt H. cbn [fold_left]. rewrite IH by (intros; apply H; now right). destruct (H b (or_introl eq_refl)). now apply play_sum.
  - clear. induction names as [|x l IH]; [cbn; ring|]. cbn [map rlist_sum length]. rewrite IH, S_INR. ring.
Qed.
Lemma fold_bound k h : 0 <= k -> forall rt x, Rabs (fold_left (play k) h rt x - rt x) <= k * INR (length h).
Proof.
  intros Hk. induction h as [|b h IH]; intros rt x; [cbn [fold_left length INR]; rewrite Rminus_eq_0, Rabs_R0; lra|]. cbn [fold_left length]. rewrite S_INR. specialize (IH (play k rt b) x).
  replace (fold_left (play k) h (play k rt b) x - rt x) with ((fold_left (play k) h (play k rt b) x - play k rt b x) + (play k rt b x - rt x)) by ring.
  eapply Rle_trans; [apply Rabs_triang|]. assert (Rabs (play k rt b x - rt x) <= k); [|lra]. unfold play. pose proof (chance_range (rt (snd b) - rt (fst b))) as Q. set (c := win_chance _) in *.
  apply Rabs_le. destruct (string_dec x (fst b)), (string_dec x (snd b)); split; nra.
Qed.
Lemma fold_unbeaten k h x : 0 <= k -> (forall b, In b h -> snd b <> x) -> forall rt, rt x <= fold_left (play k) h rt x.
Proof.
  intros Hk. induction h as [|b h IH]; intros H rt; [cbn; lra|]. cbn [fold_left]. eapply Rle_trans; [|apply IH; intros; apply H; now right]. unfold play. pose proof (chance_range (rt (snd b) - rt (fst b))) as Q.
  destruct (string_dec x (snd b)) as [->|_]; [exfalso; now apply (H b (or_introl eq_refl))|]. destruct (string_dec x (fst b)); nra.
Qed.
Lemma fold_winless k h x : 0 <= k -> (forall b, In b h -> fst b <> x) -> forall rt, fold_left (play k) h rt x <= rt x.
Proof.
  intros Hk. induction h as [|b h IH]; intros H rt; [cbn; lra|]. cbn [fold_left]. eapply Rle_trans; [apply IH; intros; apply H; now right|]. unfold play. pose proof (chance_range (rt (snd b) - rt (fst b))) as Q.
  destruct (string_dec x (fst b)) as [->|_]; [exfalso; now apply (H b (or_introl eq_refl))|]. destruct (string_dec x (snd b)); nra.
Qed.
(** Points are neither made nor lost: ratings average 1500.  A contestant with no recorded loss ends at 1500 or above, one with no recorded win at 1500 or below, and nobody moves further than k points a battle. *)
Theorem C116_points_conserved {G} pow10 (choices : list (string * Z) -> G -> nat * G) k limit bs f g :
  is_pow10 pow10 -> in_range choices -> well_named bs -> NoDup bs -> 0 <= k ->
  exists elo rest g' rt, elo_from_win_counts pow10 choices (Fin k) limit (counter bs f) g = Ok (elo, rest, g') /\
    (forall x, takes_part bs x -> dget x elo = Some (Fin (rt x))) /\
    rlist_sum (map rt (map fst elo)) = 1500 * INR (length elo) /\
    (forall x, (forall b, In b bs -> (1 <= f b)%Z -> snd b <> x) -> 1500 <= rt x) /\
    (forall x, (forall b, In b bs -> (1 <= f b)%Z -> fst b <> x) -> rt x <= 1500) /\
    (forall x, Rabs (rt x - 1500) <= k * INR (Nat.min limit (total bs f))).
Proof.
  intros HP HC HW NB Hk. destruct (C116_ratings pow10 choices k limit bs f g HP HC HW NB) as (h & elo & g' & E1 & E2 & E3 & E4 & E5 & E6 & E7 & _).
  assert (R0 : forall b, In b h -> In b bs /\ (1 <= f b)%Z).
  { intros b Hb. split; [now apply E6|]. pose proof (E7 b (E6 b Hb)). apply (count_occ_In pair_dec) in Hb. lia. }
  exists elo, (counter bs (fun b => f b - Z.of_nat (count_occ pair_dec h b))%Z), g', (replay k h). split; [exact E1|]. split; [|split; [|split; [|split]]].
  - intros x Hx. apply E4. now apply E3.
  - rewrite replay_sum by (auto; intros b Hb; split; apply E3; exists b; split; auto). now rewrite map_length.
  - intros x Hx. apply (fold_unbeaten k h x Hk) with (rt := fun _ => 1500). intros b Hb. destruct (R0 b Hb). now apply Hx.
  - intros x Hx. apply (fold_winless k h x Hk) with (rt := fun _ => 1500). intros b Hb. destruct (R0 b Hb). now apply Hx.
  - intros x. rewrite <- E5. exact (fold_bound k h Hk (fun _ => 1500) x).
Qed.
(** a key that is not of the form "winner>loser" is an error: no ratings *)
Theorem C116_malformed_key {G} pow10 (choices : list (string * Z) -> G -> nat * G) k limit ctn g s c : In (s, c) ctn -> plain s ->
  elo_from_win_counts (N := NumX) pow10 choices k limit ctn g = Err IndexError.
Proof.
  intros H P. unfold elo_from_win_counts, contestants.
  assert (H1 : exists l, mapM (fun b : string * Z => at_index (split_gt (fst b)) 0) ctn = Ok l).
  { clear. induction ctn as [|[t d] l [r IH]]; [eexists; reflexivity|]. cbn [mapM fst]. assert (E : exists a, at_index (split_gt t) 0 = Ok a).
    { unfold at_index. destruct (split_gt t) as [|a u] eqn:E; [|exists a; reflexivity]. exfalso. destruct t as [|q t]; cbn in E; [discriminate|]. destruct (Ascii.eqb q ">"); [discriminate|]. destruct (split_gt t); discriminate. }
    destruct E as [a ->]. cbn [bind]. rewrite IH. eexists; reflexivity. }
  assert (H2 : mapM (fun b : string * Z => at_index (split_gt (fst b)) 1) ctn = Err IndexError).
  { clear - H P. assert (E : forall b, at_index (split_gt b) 1 = Err IndexError \/ exists a, at_index (split_gt b) 1 = Ok a) by (intros b; unfold at_index; destruct (nth_error (split_gt b) 1); [right; eexists; reflexivity|now left]).
    induction ctn as [|[t d] l IH]; [destruct H|]. cbn [mapM fst]. destruct H as [H|H].
    - injection H as -> ->. now rewrite split_plain by exact P.
    - destruct (E t) as [->|[a ->]]; [reflexivity|]. cbn [bind]. now rewrite IH. }
  destruct H1 as [l ->]. cbn [bind]. now rewrite H2.
Qed.
Lemma split_join x y : (length (split_gt (x ++ ">" ++ y)) = length (split_gt x) + length (split_gt y))%nat.
Proof.
  induction x as [|c x IH]; [reflexivity|]. cbn [append split_gt] in *. destruct (Ascii.eqb c ">"); [cbn [length]; now rewrite IH|].
  destruct (split_gt (x ++ String ">" y)) as [|u v] eqn:E1, (split_gt x) as [|u' v'] eqn:E2; cbn [length] in *; auto; try lia.
  all: exfalso; clear - E2; destruct x as [|q x]; cbn in E2; [discriminate|]; destruct (Ascii.eqb q ">"); [discriminate|]; destruct (split_gt x); discriminate.
Qed.
Lemma split_pos x : (1 <= length (split_gt x))%nat.
Proof. destruct x as [|q x]; cbn; [lia|]. destruct (Ascii.eqb q ">"); cbn; [lia|]. destruct (split_gt x); cbn; lia. Qed.
(** keys with more than one '>' (three names) are counted in, but cannot be played *)
Theorem C116_three_names {G} pow10 (choices : list (string * Z) -> G -> nat * G) k limit ctn g : in_range choices -> (1 <= limit)%nat ->
  (forall e, In e ctn -> exists a b c, fst e = a ++ ">" ++ b ++ ">" ++ c) -> (exists e, In e ctn /\ (1 <= snd e)%Z) ->
  elo_from_win_counts (N := NumX) pow10 choices k limit ctn g = Err ValueError.
Proof.
  intros HC HL HK (e0 & He0 & H0).
  assert (L3 : forall e, In e ctn -> (3 <= length (split_gt (fst e)))%nat).
  { intros e He. destruct (HK e He) as (a & b & c & ->). rewrite !split_join. pose proof (split_pos a). pose proof (split_pos b). pose proof (split_pos c). lia. }
  assert (M : forall i, (i < 3)%nat -> exists l, mapM (fun b : string * Z => at_index (split_gt (fst b)) i) ctn = Ok l).
  { intros i Hi. clear - L3 Hi. induction ctn as [|e l IH]; [eexists; reflexivity|]. destruct IH as [r IH]; [intros; apply L3; now right|]. cbn [mapM]. unfold at_index at 1. pose proof (L3 e (or_introl eq_refl)).
    destruct (nth_error (split_gt (fst e)) i) eqn:En; [|apply nth_error_None in En; lia]. cbn [bind]. rewrite IH. eexists; reflexivity. }
  unfold elo_from_win_counts, contestants. destruct (M 0%nat ltac:(lia)) as [l0 ->]. destruct (M 1%nat ltac:(lia)) as [l1 ->]. cbn [bind]. destruct limit as [|left]; [lia|]. cbn [elo_loop].
  assert (R0 : In e0 (remaining_battles ctn)) by (unfold remaining_battles; apply filter_In; split; [exact He0|now apply Z.leb_le]).
  assert (RI : forall e, In e (remaining_battles ctn) -> In e ctn) by (intros e H; unfold remaining_battles in H; now apply filter_In in H).
  destruct (remaining_battles ctn) as [|e1 rem]; [destruct R0|]. pose proof (HC (e1 :: rem) g ltac:(discriminate)) as HI. destruct (choices (e1 :: rem) g) as [i g1]. cbn [fst] in HI. unfold at_index.
  destruct (nth_error (e1 :: rem) i) as [e|] eqn:En; [|apply nth_error_None in En; lia]. cbn [bind]. pose proof (L3 e (RI e (nth_error_In _ _ En))) as L. destruct (split_gt (fst e)) as [|a [|b [|c t]]]; cbn [length] in L; try lia. reflexivity.
Qed.
(** ** Which battles a round records *)
Lemma dget_dput {A} k k' (v : A) d : dget k (dput k' v d) = if string_dec k k' then Some v else dget k d.
Proof.
  induction d as [|[a b] d IH]; cbn [dput dget].
  - destruct (String.eqb_spec k k'), (string_dec k k'); try contradiction; reflexivity.
  - destruct (String.eqb_spec k' a) as [->|D]; cbn [dget].
    + destruct (String.eqb_spec k a), (string_dec k a); try contradiction; reflexivity.
    + rewrite IH. destruct (String.eqb_spec k a) as [->|D2]; [|reflexivity]. destruct (string_dec a k') as [->|]; [contradiction|reflexivity].
Qed.
Definition wins_of (d : option Z) : Z := match d with Some c => c | None => 0%Z end.
Lemma count_wins k l : forall battles, dget k (fold_left (fun b s => count_win s b) l battles) =
  if Nat.eqb (count_occ string_dec l k) 0 then dget k battles else Some (wins_of (dget k battles) + Z.of_nat (count_occ string_dec l k))%Z.
Proof.
  induction l as [|s l IH]; intros battles; [reflexivity|]. cbn [fold_left count_occ]. rewrite IH. unfold count_win. rewrite dget_dput. destruct (string_dec s k) as [->|D].
  - destruct (string_dec k k) as [_|]; [|contradiction]. cbn [wins_of Nat.eqb]. destruct (dget k battles) as [c|]; cbn [wins_of]; destruct (Nat.eqb_spec (count_occ string_dec l k) 0) as [E|E]; try rewrite E; f_equal; lia.
  - destruct (string_dec k s) as [->|_]; [contradiction|reflexivity].
Qed.
Definition lifted (l : list (R * string)) : list (NumX * string) := map (fun a => (Fin (fst a) : NumX, snd a)) l.
Lemma round_wins_in l atol s : In s (round_wins (N := NumX) (lifted l) (Fin atol)) <->
  exists i j x y, nth_error l i = Some x /\ nth_error l j = Some y /\ i <> j /\ fst y + atol < fst x /\ s = key (snd x, snd y).
Proof.
  assert (EN : forall (l' : list (NumX * string)) i e, In (i, e) (enumerate l') <-> nth_error l' i = Some e).
  { intros l' i e. unfold enumerate. assert (Q : forall l0 a i e, In (i, e) (combine (seq a (length l0)) l0) <-> (a <= i)%nat /\ nth_error l0 (i - a) = Some (e : NumX * string)).
    { clear. induction l0 as [|x l0 IH]; intros a i e; cbn [length seq combine In].
      - split; [intros []|]. intros [_ H]. destruct (i - a)%nat; discriminate.
      - rewrite IH. split.
        + intros [H|[H1 H2]]; [injection H as -> ->; rewrite Nat.sub_diag; split; [lia|reflexivity]|]. split; [lia|]. replace (i - a)%nat with (S (i - S a)) by lia. exact H2.
        + intros [H1 H2]. destruct (Nat.eq_dec a i) as [->|D]; [rewrite Nat.sub_diag in H2; cbn in H2; injection H2 as ->; now left|]. right. split; [lia|]. now replace (i - a)%nat with (S (i - S a)) in H2 by lia. }
    rewrite Q, Nat.sub_0_r. intuition lia. }
  unfold round_wins. rewrite in_flat_map. split.
  - intros ([i a] & Ha & H). apply in_flat_map in H as ([j b] & Hb & H). cbn [fst snd] in H. apply EN in Ha, Hb. unfold lifted in Ha, Hb. rewrite nth_error_map in Ha, Hb.
    destruct (nth_error l i) as [x|] eqn:Ex; [|discriminate]. destruct (nth_error l j) as [y|] eqn:Ey; [|discriminate]. cbn in Ha, Hb. injection Ha as <-. injection Hb as <-. cbn [fst snd] in H. rewrite add_fin, ltb_fin in H.
    destruct (Nat.eqb_spec j i); [destruct H|]. destruct (Rltb_spec (fst y + atol) (fst x)); [|destruct H]. destruct H as [<-|[]]. exists i, j, x, y. repeat split; auto.
  - intros (i & j & x & y & H1 & H2 & H3 & H4 & ->). exists (i, (Fin (fst x) : NumX, snd x)). split; [apply EN; unfold lifted; now rewrite nth_error_map, H1|].
    apply in_flat_map. exists (j, (Fin (fst y) : NumX, snd y)). split; [apply EN; unfold lifted; now rewrite nth_error_map, H2|]. cbn [fst snd]. rewrite add_fin, ltb_fin. destruct (Nat.eqb_spec j i); [lia|]. rewrite Rltb_true by exact H4. now left.
Qed.
Lemma NoDup_flat_map {A B} (f : A -> list B) l : NoDup l -> (forall a, In a l -> NoDup (f a)) -> (forall a b x, In a l -> In b l -> In x (f a) -> In x (f b) -> a = b) -> NoDup (flat_map f l).
Proof.
  induction l as [|a l IH]; [intros; constructor|]. intros ND H1 H2. apply NoDup_cons_iff in ND as [N1 N2]. cbn [flat_map].
  assert (T : NoDup (flat_map f l)) by (apply IH; auto; [intros; apply H1; now right|intros b c x Hb Hc; apply H2; now right]).
  assert (D : forall x, In x (f a) -> ~ In x (flat_map f l)). { intros x Hx Hy. apply in_flat_map in Hy as (b & Hb & Hy). apply N1. rewrite (H2 a b x); auto; [now left|now right]. }
  pose proof (H1 a (or_introl eq_refl)) as Na. induction (f a) as [|x u IHu]; [exact T|]. apply NoDup_cons_iff in Na as [M1 M2]. cbn [app]. constructor.
  - rewrite in_app_iff. intros [G|G]; [contradiction|]. apply (D x); [now left|exact G].
  - apply IHu; auto. intros; apply D; now right.
Qed.
Lemma enumerate_NoDup {A} (l : list A) : NoDup (enumerate l).
Proof.
  unfold enumerate. generalize 0%nat. induction l as [|x l IH]; intros a; [constructor|]. cbn [length seq combine]. constructor; [|apply IH].
  intros H. apply in_combine_l in H. apply in_seq in H. lia.
Qed.
Lemma round_wins_NoDup l atol : NoDup (map snd l) -> (forall x, In x l -> plain (snd x)) -> NoDup (round_wins (N := NumX) (lifted l) (Fin atol)).
Proof.
  intros ND HP.
  assert (EN : forall i e, In (i, e) (enumerate (lifted l)) -> exists x, nth_error l i = Some x /\ e = (Fin (fst x) : NumX, snd x)).
  { intros i e H. unfold enumerate in H. assert (Q : forall l0 a, In (i, e) (combine (seq a (length l0)) l0) -> (a <= i)%nat /\ nth_error l0 (i - a) = Some (e : NumX * string)).
    { clear. induction l0 as [|x l0 IH]; intros a; cbn [length seq combine In]; [intros []|]. intros [H|H]; [injection H as -> ->; rewrite Nat.sub_diag; split; [lia|reflexivity]|].
      apply IH in H as [H1 H2]. split; [lia|]. now replace (i - a)%nat with (S (i - S a)) by lia. }
    apply Q in H as [_ H]. rewrite Nat.sub_0_r in H. unfold lifted in H. rewrite nth_error_map in H. destruct (nth_error l i) as [x|]; [|discriminate]. exists x. split; [reflexivity|]. cbn in H. injection H as <-. reflexivity. }
  assert (UN : forall i j x y, nth_error l i = Some x -> nth_error l j = Some y -> snd x = snd y -> i = j).
  { intros i j x y H1 H2 E. apply (proj1 (NoDup_nth_error (map snd l)) ND); [rewrite map_length; apply nth_error_Some; congruence|]. rewrite !nth_error_map, H1, H2. cbn. now rewrite E. }
  unfold round_wins. apply NoDup_flat_map; [apply enumerate_NoDup| |].
  - intros [i a] Ha. destruct (EN _ _ Ha) as (x & Hx & ->). apply NoDup_flat_map; [apply enumerate_NoDup| |].
    + intros [j b] _. destruct (_ && _); [constructor; [intros []|constructor]|constructor].
    + intros [j b] [j' b'] s Hb Hb' H1 H2. destruct (EN _ _ Hb) as (y & Hy & ->). destruct (EN _ _ Hb') as (y' & Hy' & ->). cbn [fst snd] in H1, H2.
      destruct (_ && _) in H1; [|destruct H1]. destruct (_ && _) in H2; [|destruct H2]. destruct H1 as [<-|[]]. destruct H2 as [H2|[]].
      assert (E : (snd x, snd y') = (snd x, snd y)) by (apply key_inj; cbn [fst snd]; try (apply HP; eapply nth_error_In; eassumption); exact H2). injection E as E.
      assert (j = j') as -> by (eapply UN; eauto). congruence.
  - intros [i a] [i' a'] s Ha Ha' H1 H2. destruct (EN _ _ Ha) as (x & Hx & ->). destruct (EN _ _ Ha') as (x' & Hx' & ->).
    apply in_flat_map in H1 as ([j b] & Hb & H1). apply in_flat_map in H2 as ([j' b'] & Hb' & H2). destruct (EN _ _ Hb) as (y & Hy & ->). destruct (EN _ _ Hb') as (y' & Hy' & ->). cbn [fst snd] in H1, H2.
    destruct (_ && _) in H1; [|destruct H1]. destruct (_ && _) in H2; [|destruct H2]. destruct H1 as [<-|[]]. destruct H2 as [H2|[]].
    assert (E : (snd x', snd y') = (snd x, snd y)) by (apply key_inj; cbn [fst snd]; try (apply HP; eapply nth_error_In; eassumption); exact H2). injection E as E E'.
    assert (i = i') as -> by (eapply UN; eauto). rewrite Hx in Hx'. injection Hx' as ->. reflexivity.
Qed.
(** one round: a win is recorded once exactly for the pairs that are more than atol apart; other counts stay as they are *)
Theorem C116_round l atol battles x y : NoDup (map snd l) -> (forall z, In z l -> plain (snd z)) -> In x l -> In y l ->
  dget (key (snd x, snd y)) (record_battles (N := NumX) (lifted l) (Fin atol) battles) =
    if string_dec (snd x) (snd y) then dget (key (snd x, snd y)) battles
    else if Rlt_dec (fst y + atol) (fst x) then Some (wins_of (dget (key (snd x, snd y)) battles) + 1)%Z
    else dget (key (snd x, snd y)) battles.
Proof.
  intros ND HP Hx Hy. unfold record_battles. rewrite count_wins. pose proof (round_wins_NoDup l atol ND HP) as NR. set (K := round_wins (N := NumX) (lifted l) (Fin atol)) in *.
  assert (W : In (key (snd x, snd y)) K <-> snd x <> snd y /\ fst y + atol < fst x).
  { unfold K. rewrite round_wins_in. split.
    - intros (i & j & x' & y' & H1 & H2 & H3 & H4 & H5). pose proof (nth_error_In _ _ H1) as I1. pose proof (nth_error_In _ _ H2) as I2.
      apply key_inj in H5; cbn [fst snd]; auto. injection H5 as E1 E2.
      assert (S1 : forall u v, In u l -> In v l -> snd u = snd v -> u = v).
      { clear - ND. induction l as [|a l IH]; [intros u v []|]. cbn [map] in ND. apply NoDup_cons_iff in ND as [N1 N2]. intros u v [<-|Hu] [<-|Hv] E; auto.
        - exfalso. apply N1. rewrite E. now apply in_map.
        - exfalso. apply N1. rewrite <- E. now apply in_map. }
      assert (x' = x) as -> by auto. assert (y' = y) as -> by auto. split; [|exact H4]. intros E. assert (x = y) as -> by auto.
      apply H3. apply (proj1 (NoDup_nth_error (map snd l)) ND); [rewrite map_length; apply nth_error_Some; congruence|]. rewrite !nth_error_map, H1, H2. reflexivity.
    - intros [H1 H2]. apply In_nth_error in Hx as [i Hi]. apply In_nth_error in Hy as [j Hj]. exists i, j, x, y. repeat split; auto. intros ->. apply H1. congruence. }
  pose proof (proj1 (NoDup_count_occ string_dec K) NR (key (snd x, snd y))) as C1. pose proof (count_occ_In string_dec K (key (snd x, snd y))) as C2. set (c := count_occ string_dec K (key (snd x, snd y))) in *.
  destruct (string_dec (snd x) (snd y)) as [E|D].
  - assert (c = 0)%nat as ->. { assert (~ (c > 0)%nat); [|lia]. intros G. apply C2, W in G. now destruct G. } reflexivity.
  - destruct (Rlt_dec (fst y + atol) (fst x)) as [L|L].
    + assert (c = 1)%nat as ->. { assert (c > 0)%nat; [|lia]. apply C2, W. auto. } reflexivity.
    + assert (c = 0)%nat as ->. { assert (~ (c > 0)%nat); [|lia]. intros G. apply C2, W in G. now destruct G. } reflexivity.
Qed.
(** the premises are met *)
Example C116_witness : exists pow10, is_pow10 pow10 /\ in_range (G := unit) (fun _ _ => (0%nat, tt)) /\
  let bs := [("ann", "bob"); ("bob", "cal"); ("bob", "ann")] in let f := fun b => if string_dec (fst b) "ann" then 3%Z else 1%Z in
  well_named bs /\ NoDup bs /\ total bs f = 5%nat /\ counter bs f = [("ann>bob", 3%Z); ("bob>cal", 1%Z); ("bob>ann", 1%Z)].
Proof.
  exists (fun x => match x with Fin r => Fin (Rpower 10 r) | _ => x end). split; [intros x; reflexivity|]. split; [intros [|e l] _ H; [contradiction|cbn; lia]|]. cbv zeta. split; [|split; [|split; reflexivity]].
  - intros b [<-|[<-|[<-|[]]]]; cbn; repeat split; discriminate.
  - repeat constructor; cbn; intuition discriminate.
Qed.
Example C116_round_witness : let l := [(3, "ann"); (1, "bob"); (5 / 2, "cal")] in NoDup (map snd l) /\ (forall z, In z l -> plain (snd z)) /\
  record_battles (N := NumX) (lifted l) (Fin 1) [] = [("ann>bob", 1%Z); ("cal>bob", 1%Z)].
Proof.
  cbv zeta. split; [|split].
  - repeat constructor; cbn; intuition discriminate.
  - intros b [<-|[<-|[<-|[]]]]; cbn; repeat split; discriminate.
  - unfold record_battles, round_wins, lifted, enumerate. cbn [map combine seq length flat_map fst snd Nat.eqb negb andb app]. rewrite !add_fin, !ltb_fin.
    rewrite (Rltb_true (1 + 1) 3), (Rltb_false (5 / 2 + 1) 3), (Rltb_false (3 + 1) 1), (Rltb_false (5 / 2 + 1) 1), (Rltb_false (3 + 1) (5 / 2)), (Rltb_true (1 + 1) (5 / 2)) by lra. reflexivity.
Qed.
Example C116_three_names_witness : exists a b c, "ann>bob>cal" = a ++ ">" ++ b ++ ">" ++ c. Proof. now exists "ann", "bob", "cal". Qed.

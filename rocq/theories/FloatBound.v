(** * Magnitude bounds through rounded operations (proof infrastructure for Props_FloatShrink.v)

    [bd e x]: the float [x] is finite and at most [2^e] in absolute value. *)
From Coq Require Import Reals ZArith String List Bool Lia Lra Psatz.
From Flocq Require Import Core BinarySingleNaN.
From Verif Require Import Num NumBin Numpy FloatBase FloatErr ListLemmas.
Import ListNotations.
Local Open Scope R_scope.

Notation b2 := (bpow radix2).
Definition bd (e : Z) (x : NumB) : Prop := fin x /\ Rabs (val x) <= b2 e.
Lemma bd_fin e x : bd e x -> fin x. Proof. now intros []. Qed.
Lemma bd_le e f x : bd e x -> (e <= f)%Z -> bd f x.
Proof. intros [F B] H. split; [exact F|]. eapply Rle_trans; [exact B|]. now apply bpow_le. Qed.
Lemma b2_big e : (e <= 1023)%Z -> b2 e <= big. Proof. intros H. now apply bpow_le. Qed.
Lemma b2_add1 g : b2 (g + 1) = b2 g + b2 g.
Proof. rewrite bpow_plus. change (b2 1) with 2. ring. Qed.
Lemma bd_mul e f x y : bd e x -> bd f y -> (-1074 <= e + f <= 1023)%Z -> bd (e + f) (nmul x y) /\ val (nmul x y) = rnd (val x * val y).
Proof.
  intros [Fx Bx] [Fy By] H. assert (K : Rabs (val x * val y) <= b2 (e + f)).
  { rewrite bpow_plus. apply abs_mul; auto. }
  destruct (fin_mul x y Fx Fy) as [F V]; [eapply Rle_trans; [exact K|apply b2_big; lia]|].
  split; [split; [exact F|rewrite V; apply rnd_abs_le; [apply fmt_bpow; lia|exact K]]|exact V].
Qed.
Lemma bd_add g x y : bd g x -> bd g y -> (-1074 <= g <= 1022)%Z -> bd (g + 1) (nadd x y) /\ val (nadd x y) = rnd (val x + val y).
Proof.
  intros [Fx Bx] [Fy By] H. assert (K : Rabs (val x + val y) <= b2 (g + 1)) by (rewrite b2_add1; now apply abs_add).
  destruct (fin_add x y Fx Fy) as [F V]; [eapply Rle_trans; [exact K|apply b2_big; lia]|].
  split; [split; [exact F|rewrite V; apply rnd_abs_le; [apply fmt_bpow; lia|exact K]]|exact V].
Qed.
Lemma bd_sub g x y : bd g x -> bd g y -> (-1074 <= g <= 1022)%Z -> bd (g + 1) (nsub x y) /\ val (nsub x y) = rnd (val x - val y).
Proof.
  intros [Fx Bx] [Fy By] H. assert (K : Rabs (val x - val y) <= b2 (g + 1)) by (rewrite b2_add1; now apply abs_sub).
  destruct (fin_sub x y Fx Fy) as [F V]; [eapply Rle_trans; [exact K|apply b2_big; lia]|].
  split; [split; [exact F|rewrite V; apply rnd_abs_le; [apply fmt_bpow; lia|exact K]]|exact V].
Qed.
(** division by a float of absolute value at least one *)
Lemma bd_div e x y : bd e x -> fin y -> 1 <= val y -> (-1074 <= e <= 1023)%Z -> bd e (ndiv x y) /\ val (ndiv x y) = rnd (val x / val y).
Proof.
  intros [Fx Bx] Fy Hy H. assert (K : Rabs (val x / val y) <= b2 e) by now apply abs_div_ge1.
  destruct (fin_div x y Fx Fy) as [F V]; [lra|eapply Rle_trans; [exact K|apply b2_big; lia]|].
  split; [split; [exact F|rewrite V; apply rnd_abs_le; [apply fmt_bpow; lia|exact K]]|exact V].
Qed.
Lemma bd_nofn p : (1 <= p)%nat -> (Z.of_nat p <= 2 ^ 20)%Z -> fin (nofn (N := NumB) p) /\ 1 <= val (nofn (N := NumB) p) /\ val (nofn (N := NumB) p) = INR p.
Proof.
  intros H1 H2. destruct (fin_nofn p) as [F V]; [apply Z.le_trans with (2 ^ 20)%Z; [exact H2|apply Z.leb_le; reflexivity]|].
  split; [exact F|]. rewrite V. split; [|reflexivity]. change 1 with (INR 1). now apply le_INR.
Qed.
Lemma bd_0 e : bd e (n0 (N := NumB)). Proof. destruct fin_0 as [F V]. split; [exact F|]. rewrite V, Rabs_R0. apply bpow_ge_0. Qed.
Lemma bd_1 : bd 0 (n1 (N := NumB)). Proof. destruct fin_1 as [F V]. split; [exact F|]. rewrite V, Rabs_R1. simpl. lra. Qed.

(** ** Sums: exact multiples of a power of two bound every partial sum *)
Lemma fmt_mult_bpow z e : (Z.abs z < 2 ^ 53)%Z -> (-1074 <= e)%Z -> fmt (IZR z * b2 e).
Proof.
  intros Hz He. unfold fmt. apply generic_format_FLT. exists (Float radix2 z e); [reflexivity|exact Hz|exact He].
Qed.
Lemma fin_fold (K : Z) l e : (0 <= K <= 52)%Z -> (-1074 <= e)%Z -> forall k acc, Forall (bd e) l -> fin acc -> Rabs (val acc) <= INR k * b2 e ->
  (Z.of_nat (k + length l) <= 2 ^ K)%Z -> (e + K <= 1023)%Z ->
  fin (fold_left nadd l acc) /\ Rabs (val (fold_left nadd l acc)) <= INR (k + length l) * b2 e /\
  (0 <= val acc -> Forall (fun x => 0 <= val x) l -> 0 <= val (fold_left nadd l acc)).
Proof.
  intros HK He. induction l as [|x l IH]; intros k acc Hl Fa Ba Hk Hb; cbn [fold_left length] in *.
  - rewrite Nat.add_0_r. auto.
  - inversion Hl as [|? ? [Fx Bx] Hl']; subst.
    assert (A : Rabs (val acc + val x) <= INR (S k) * b2 e).
    { rewrite S_INR. replace ((INR k + 1) * b2 e) with (INR k * b2 e + b2 e) by ring. now apply abs_add. }
    assert (KB : INR (S k) * b2 e <= b2 (e + K)).
    { rewrite Z.add_comm, bpow_plus. apply Rmult_le_compat_r; [apply bpow_ge_0|]. rewrite INR_IZR_INZ. rewrite <- IZR_Zpower by lia.
      apply IZR_le. change (radix_val radix2) with 2%Z. lia. }
    destruct (fin_add acc x Fa Fx) as [F V]; [eapply Rle_trans; [exact A|]; eapply Rle_trans; [exact KB|now apply b2_big]|].
    assert (B : Rabs (val (nadd acc x)) <= INR (S k) * b2 e).
    { rewrite V. apply rnd_abs_le; [|exact A]. rewrite INR_IZR_INZ. apply fmt_mult_bpow; [|exact He].
      apply Z.le_lt_trans with (2 ^ K)%Z; [lia|]. apply Z.pow_lt_mono_r; lia. }
    destruct (IH (S k) (nadd acc x) Hl' F B) as (A1 & A2 & A3); [lia|exact Hb|].
    replace (S k + length l)%nat with (k + S (length l))%nat in A2 by lia. split; [exact A1|]. split; [exact A2|].
    intros Ha H. inversion H; subst. apply A3; [|assumption]. rewrite V. apply rnd_nonneg. lra.
Qed.
Lemma bd_vsum_k (K : Z) l e : (0 <= K <= 52)%Z -> (-1074 <= e)%Z -> (e + K <= 1023)%Z -> Forall (bd e) l -> (Z.of_nat (length l) <= 2 ^ K)%Z ->
  bd (e + K) (vsum (N := NumB) l) /\ (Forall (fun x => 0 <= val x) l -> 0 <= val (vsum (N := NumB) l)).
Proof.
  intros HK He Hb Hl Hn. destruct fin_0 as [F0 V0].
  destruct (fin_fold K l e HK He 0 n0 Hl F0) as (A1 & A2 & A3); [rewrite V0, Rabs_R0; simpl; lra|exact Hn|exact Hb|].
  split; [split; [exact A1|]|intros H; apply A3; [rewrite V0; lra|exact H]].
  eapply Rle_trans; [exact A2|]. rewrite Z.add_comm, bpow_plus. apply Rmult_le_compat_r; [apply bpow_ge_0|]. rewrite INR_IZR_INZ.
  rewrite <- IZR_Zpower by lia. apply IZR_le. exact Hn.
Qed.
Lemma bd_vsum l e : (-1074 <= e)%Z -> (e + 20 <= 1023)%Z -> Forall (bd e) l -> (Z.of_nat (length l) <= 2 ^ 20)%Z ->
  bd (e + 20) (vsum (N := NumB) l) /\ (Forall (fun x => 0 <= val x) l -> 0 <= val (vsum (N := NumB) l)).
Proof. intros. apply (bd_vsum_k 20); auto; lia. Qed.
(** division by a float that is not small *)
Lemma bd_div_lo e k x y : bd e x -> fin y -> b2 (- k) <= val y -> (-1074 <= e + k <= 1023)%Z -> bd (e + k) (ndiv x y) /\ val (ndiv x y) = rnd (val x / val y).
Proof.
  intros [Fx Bx] Fy Hy H. pose proof (bpow_gt_0 radix2 (- k)) as P. assert (A : Rabs (val x / val y) <= b2 (e + k)).
  { unfold Rdiv. rewrite bpow_plus. apply abs_mul; [exact Bx|]. rewrite Rabs_right by (apply Rle_ge, Rlt_le, Rinv_0_lt_compat; lra).
    rewrite <- (Z.opp_involutive k) at 1. rewrite bpow_opp. apply Rinv_le_contravar; [exact P|exact Hy]. }
  destruct (fin_div x y Fx Fy) as [F V]; [lra|eapply Rle_trans; [exact A|apply b2_big; lia]|].
  split; [split; [exact F|rewrite V; apply rnd_abs_le; [apply fmt_bpow; lia|exact A]]|exact V].
Qed.
(** square roots *)
Lemma fin_sqrt (x : NumB) : fin x -> 0 <= val x -> fin (nsqrt x) /\ val (nsqrt x) = rnd (sqrt (val x)).
Proof.
  intros F H. pose proof (@Bsqrt_correct 53 1024 prec53 prec_emax mode_NE x) as (V & Fi & _). split; [|exact V].
  unfold fin. change (nsqrt x) with (@Bsqrt 53 1024 prec53 prec_emax mode_NE x). rewrite Fi.
  destruct x as [s|s| |[] m e K]; try discriminate F; try reflexivity. exfalso. unfold val in H. cbn [B2R] in H.
  assert (F2R (Float radix2 (cond_Zopp true (Zpos m)) e) < 0) by (apply F2R_lt_0; reflexivity). lra.
Qed.

(** ** Clipping to [0, 1] *)
Lemma ltb_fin (x y : NumB) : fin x -> fin y -> nltb x y = Rlt_bool (val x) (val y).
Proof. intros Fx Fy. apply Bltb_correct; assumption. Qed.
Lemma leb_fin (x y : NumB) : fin x -> fin y -> nleb x y = Rle_bool (val x) (val y).
Proof. intros Fx Fy. apply Bleb_correct; assumption. Qed.
Definition unit64 (x : NumB) : Prop := fin x /\ 0 <= val x <= 1.
Lemma unit_bd x : unit64 x -> bd 0 x. Proof. intros [F H]. split; [exact F|]. rewrite Rabs_right by lra. simpl. lra. Qed.
Lemma unit_1 : unit64 (n1 (N := NumB)). Proof. destruct fin_1 as [F V]. split; [exact F|]. rewrite V. lra. Qed.
Lemma unit_0 : unit64 (n0 (N := NumB)). Proof. destruct fin_0 as [F V]. split; [exact F|]. rewrite V. lra. Qed.
Lemma clip_unit (x : NumB) : nisnan x = false -> unit64 (py_min (py_max x n0) n1).
Proof.
  intros Hn. destruct fin_0 as [F0 V0], fin_1 as [F1 V1]. destruct x as [s|s| |s m e H] eqn:Ex.
  - unfold py_max. rewrite ltb_fin by (reflexivity || exact F0). rewrite V0. cbn [val B2R]. unfold val. cbn [B2R]. rewrite Rlt_bool_false by lra.
    unfold py_min. rewrite ltb_fin by (reflexivity || exact F1). rewrite V1. unfold val. cbn [B2R]. rewrite Rlt_bool_false by lra. split; [reflexivity|]. unfold val. cbn [B2R]. lra.
  - destruct s.
    + replace (py_max (B754_infinity true : NumB) n0) with (n0 (N := NumB)) by reflexivity.
      unfold py_min. rewrite ltb_fin by assumption. rewrite V0, V1, Rlt_bool_false by lra. exact unit_0.
    + replace (py_max (B754_infinity false : NumB) n0) with (B754_infinity false : NumB) by reflexivity.
      replace (py_min (B754_infinity false : NumB) n1) with (n1 (N := NumB)) by reflexivity. exact unit_1.
  - discriminate Hn.
  - rewrite <- Ex. assert (Fx : fin x) by (rewrite Ex; reflexivity). unfold py_max. rewrite ltb_fin by assumption. rewrite V0.
    destruct (Rlt_bool_spec (val x) 0).
    + unfold py_min. rewrite ltb_fin by assumption. rewrite V0, V1, Rlt_bool_false by lra. exact unit_0.
    + unfold py_min. rewrite ltb_fin by assumption. rewrite V1. destruct (Rlt_bool_spec 1 (val x)); [exact unit_1|]. split; [exact Fx|lra].
Qed.
Lemma div_not_nan (x y : NumB) : fin x -> fin y -> val y <> 0 -> nisnan (ndiv x y) = false.
Proof.
  intros Fx Fy Hy. destruct x as [sx|sx| |sx mx ex Hx], y as [sy|sy| |sy my ey Hyy]; try discriminate Fx; try discriminate Fy; try (unfold val in Hy; cbn [B2R] in Hy; lra).
  - reflexivity.
  - set (x := B754_finite sx mx ex Hx : NumB). set (y := B754_finite sy my ey Hyy : NumB).
    pose proof (@Bdiv_correct 53 1024 prec53 prec_emax mode_NE x y Hy) as K. destruct (Rlt_bool _ _) in K.
    + destruct K as (_ & K & _). change (is_finite (ndiv x y) = is_finite x) in K. destruct (ndiv x y) eqn:Q; try discriminate K; reflexivity.
    + change (B2SF (ndiv x y) = binary_overflow 53 1024 mode_NE (xorb (Bsign x) (Bsign y))) in K. destruct (ndiv x y) eqn:Q; try reflexivity. cbn in K. discriminate K.
Qed.

Lemma np_clip_unit (x : NumB) : nisnan x = false -> unit64 (np_clip x n0 n1).
Proof.
  intros Hn. pose proof (clip_unit x Hn) as H. destruct fin_0 as [F0 _]. destruct fin_1 as [F1 _].
  assert (N0 : nisnan (n0 (N := NumB)) = false) by reflexivity. assert (N1 : nisnan (n1 (N := NumB)) = false) by reflexivity.
  unfold np_clip, np_max. rewrite Hn, N0. fold (py_max x n0). unfold np_min. rewrite N1.
  replace (nisnan (py_max x n0)) with false by (unfold py_max; destruct (nltb x n0); auto). exact H.
Qed.

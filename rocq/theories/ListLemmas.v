(** * Law-free lemmas about tabulated lists, broadcasting and the result monad *)
From Coq Require Import ZArith Bool List Lia Arith.
From Verif Require Import Num Numpy.
Import ListNotations.

Global Arguments tab : simpl never.
Global Arguments tab2 : simpl never.

Lemma bind_ok {A B} (m : res A) (f : A -> res B) b :
  bind m f = Ok b <-> exists a, m = Ok a /\ f a = Ok b.
Proof.
  destruct m; simpl; split; intros H.
  - eauto.
  - destruct H as (a' & E & H); injection E; intros; subst; auto.
  - discriminate.
  - destruct H as (? & ? & ?); discriminate.
Qed.

Lemma tab_length {A} p (f : nat -> A) : length (tab p f) = p.
Proof. unfold tab. now rewrite map_length, seq_length. Qed.

Lemma nth_tab {A} p (f : nat -> A) i d : i < p -> nth i (tab p f) d = f i.
Proof.
  intros H. unfold tab.
  rewrite nth_indep with (d' := f 0) by now rewrite map_length, seq_length.
  rewrite map_nth. now rewrite seq_nth.
Qed.

Lemma tab_ext {A} p (f g : nat -> A) : (forall i, i < p -> f i = g i) -> tab p f = tab p g.
Proof.
  intros H. unfold tab. apply map_ext_in. intros i Hi. apply in_seq in Hi. apply H. lia.
Qed.

Lemma tab_nth {A} (l : list A) d : l = tab (length l) (fun i => nth i l d).
Proof.
  apply nth_ext with (d := d) (d' := d).
  - now rewrite tab_length.
  - intros n Hn. now rewrite nth_tab.
Qed.
Lemma tab_nth' {A} (l : list A) d p : length l = p -> l = tab p (fun i => nth i l d).
Proof. intros <-. apply tab_nth. Qed.

Lemma list_eq_nth {A} (l l' : list A) d :
  length l = length l' -> (forall i, i < length l -> nth i l d = nth i l' d) -> l = l'.
Proof. intros. apply nth_ext with (d := d) (d' := d); auto. Qed.

Lemma map_tab {A B} p (f : nat -> A) (g : A -> B) : map g (tab p f) = tab p (fun i => g (f i)).
Proof. unfold tab. now rewrite map_map. Qed.

Lemma tab_inj {A} p (f g : nat -> A) i : tab p f = tab p g -> i < p -> f i = g i.
Proof. intros H Hi. rewrite <- (nth_tab p f i (f i)), <- (nth_tab p g i (f i)) by auto. now rewrite H. Qed.

Lemma tab_S {A} p (f : nat -> A) : tab (S p) f = f 0 :: tab p (fun i => f (S i)).
Proof. unfold tab. simpl. f_equal. now rewrite <- seq_shift, map_map. Qed.

Lemma tab_snoc {A} p (f : nat -> A) : tab (S p) f = tab p f ++ [f p].
Proof. unfold tab. rewrite seq_S, map_app. reflexivity. Qed.

Lemma tab_app {A} p q (f : nat -> A) : tab (p + q) f = tab p f ++ tab q (fun i => f (p + i)).
Proof.
  revert f; induction p as [|p IH]; intros f; [reflexivity|].
  cbn [Nat.add]. rewrite !tab_S, IH. reflexivity.
Qed.

Lemma tab2_length {A} p q (f : nat -> nat -> A) : length (tab2 p q f) = p.
Proof. apply tab_length. Qed.

Lemma nth_tab2 {A} p q (f : nat -> nat -> A) i d : i < p -> nth i (tab2 p q f) d = tab q (f i).
Proof. intros. unfold tab2. now rewrite nth_tab. Qed.

Lemma tab2_ext {A} p q (f g : nat -> nat -> A) :
  (forall i j, i < p -> j < q -> f i j = g i j) -> tab2 p q f = tab2 p q g.
Proof. intros H. apply tab_ext; intros. apply tab_ext; auto. Qed.

Lemma map_tab2 {A B} p q (f : nat -> nat -> A) (g : A -> B) :
  map (map g) (tab2 p q f) = tab2 p q (fun i j => g (f i j)).
Proof. unfold tab2. rewrite map_tab. apply tab_ext; intros. apply map_tab. Qed.

Lemma tab2_inj {A} p q (f g : nat -> nat -> A) i j :
  tab2 p q f = tab2 p q g -> i < p -> j < q -> f i j = g i j.
Proof. intros H Hi Hj. eapply tab_inj in H; eauto. eapply tab_inj in H; eauto. Qed.

(** Shape of a rectangular array. *)
Definition is_mat {A} (p q : nat) (m : list (list A)) : Prop :=
  length m = p /\ Forall (fun r => length r = q) m.

Lemma is_mat_tab2 {A} p q (f : nat -> nat -> A) : is_mat p q (tab2 p q f).
Proof.
  split; [apply tab_length|]. unfold tab2, tab. rewrite Forall_map. apply Forall_forall.
  intros. now rewrite map_length, seq_length.
Qed.

Lemma is_mat_row {A} p q (m : list (list A)) i : is_mat p q m -> i < p -> length (nth i m []) = q.
Proof.
  intros [H1 H2] Hi. rewrite Forall_forall in H2. apply H2. apply nth_In. lia.
Qed.

Lemma is_mat_tab {A} p q (m : list (list A)) d :
  is_mat p q m -> m = tab2 p q (fun i j => nth j (nth i m []) d).
Proof.
  intros H. unfold tab2.
  rewrite (tab_nth' m [] p (proj1 H)) at 1. apply tab_ext; intros.
  apply tab_nth'. eapply is_mat_row; eauto.
Qed.

Lemma zipw_tab {A B C} (h : A -> B -> C) p f g :
  zipw h (tab p f) (tab p g) = tab p (fun i => h (f i) (g i)).
Proof.
  revert f g; induction p as [|p IH]; intros f g; auto. rewrite !tab_S. simpl. now rewrite IH.
Qed.

Lemma zipw_length {A B C} (h : A -> B -> C) a b : length a = length b -> length (zipw h a b) = length a.
Proof.
  revert b; induction a as [|x a IH]; intros [|y b]; simpl; intros; try discriminate; auto.
Qed.

Lemma bc_eqlen {A B C} (h : A -> B -> C) a b : length a = length b -> bc h a b = Ok (zipw h a b).
Proof. intros H. unfold bc. now rewrite H, Nat.eqb_refl. Qed.

Lemma bc_tab {A B C} (h : A -> B -> C) p f g :
  bc h (tab p f) (tab p g) = Ok (tab p (fun i => h (f i) (g i))).
Proof. rewrite bc_eqlen by now rewrite !tab_length. now rewrite zipw_tab. Qed.

Lemma mapM_tab {A B} (h : A -> res B) p f g :
  (forall i, i < p -> h (f i) = Ok (g i)) -> mapM h (tab p f) = Ok (tab p g).
Proof.
  revert f g; induction p as [|p IH]; intros f g H; auto.
  rewrite !tab_S. simpl. rewrite H by lia. simpl. rewrite (IH _ (fun i => g (S i))); auto.
  intros. apply H. lia.
Qed.

Lemma bc2_tab {A B C} (h : A -> B -> C) p q f g :
  bc2 h (tab2 p q f) (tab2 p q g) = Ok (tab2 p q (fun i j => h (f i j) (g i j))).
Proof.
  unfold bc2, tab2. rewrite bc_tab. simpl. apply mapM_tab. intros. apply bc_tab.
Qed.

Lemma mapM_length {A B} (h : A -> res B) l l' : mapM h l = Ok l' -> length l' = length l.
Proof.
  revert l'; induction l as [|a l IH]; simpl; intros l' H.
  - injection H as <-. reflexivity.
  - apply bind_ok in H. destruct H as (b & Hb & H). apply bind_ok in H.
    destruct H as (bs & Hbs & H). injection H as <-. simpl. f_equal. auto.
Qed.

Lemma mapM_nth {A B} (h : A -> res B) l l' i d d' :
  mapM h l = Ok l' -> i < length l -> h (nth i l d) = Ok (nth i l' d').
Proof.
  revert l' i; induction l as [|a l IH]; simpl; intros l' i H Hi; [lia|].
  apply bind_ok in H. destruct H as (b & Hb & H). apply bind_ok in H.
  destruct H as (bs & Hbs & H). injection H as <-.
  destruct i; simpl; auto. apply IH; auto. lia.
Qed.

Lemma mapM_ext {A B} (h h' : A -> res B) l :
  (forall a, In a l -> h a = h' a) -> mapM h l = mapM h' l.
Proof.
  induction l as [|a l IH]; simpl; intros H; auto. rewrite H by auto. rewrite IH; auto.
Qed.

Lemma mapM_map {A B C} (h : B -> res C) (g : A -> B) l : mapM h (map g l) = mapM (fun a => h (g a)) l.
Proof. induction l as [|a l IH]; simpl; auto. now rewrite IH. Qed.

Lemma mapM_app {A B} (h : A -> res B) l l' :
  mapM h (l ++ l') = (a <- mapM h l ;; b <- mapM h l' ;; Ok (a ++ b)).
Proof.
  induction l as [|x l IH]; simpl.
  - destruct (mapM h l'); auto.
  - rewrite IH. destruct (h x); simpl; auto. destruct (mapM h l); simpl; auto.
    destruct (mapM h l'); simpl; auto.
Qed.

Lemma mapM_all_ok {A B} (h : A -> res B) (g : A -> B) l :
  (forall a, In a l -> h a = Ok (g a)) -> mapM h l = Ok (map g l).
Proof.
  induction l as [|a l IH]; simpl; intros H; auto. rewrite H by auto. simpl.
  rewrite IH by auto. reflexivity.
Qed.

Lemma slice_tab {A} a b p (f : nat -> A) : a <= b -> b <= p -> slice a b (tab p f) = tab (b - a) (fun i => f (a + i)).
Proof.
  intros H1 H2. unfold slice.
  replace p with (a + ((b - a) + (p - b))) by lia.
  rewrite tab_app, skipn_app, skipn_all2 by (rewrite tab_length; lia).
  rewrite tab_length, Nat.sub_diag. simpl.
  rewrite tab_app, firstn_app, firstn_all2 by (rewrite tab_length; lia).
  rewrite tab_length, Nat.sub_diag. simpl. now rewrite app_nil_r.
Qed.

Lemma slice_length {A} a b (l : list A) : b <= length l -> length (slice a b l) = b - a.
Proof. intros. unfold slice. rewrite firstn_length, skipn_length. lia. Qed.

Lemma nth_map' {A B} (f : A -> B) l i d d' : i < length l -> nth i (map f l) d' = f (nth i l d).
Proof.
  intros. rewrite nth_indep with (d' := f d) by now rewrite map_length. apply map_nth.
Qed.

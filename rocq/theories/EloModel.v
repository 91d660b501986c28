(** * Model of the Elo ratings of research/legacy_skatervaluation/battleutil/eloformulas.py, compilingeloratings.py, battleio.py and arrangingbattles.py

    Scalars are Python floats.  [10 ** x] is a parameter, like [np.log] in ResearchModel.v.  Counts of battles are
    whole numbers, as generic_battle writes them (research/legacy_skatervaluation/battleutil/arrangingbattles.py:112-119, modelled by [record_battles]).
    Not modelled: printing, timing, finding, reading and writing of files, and the column of CPU times that
    [elo_from_win_counts] adds when it is given a genre (lines 129-133). *)
From Coq Require Import ZArith String Ascii List Bool.
From Verif Require Import Num PyVal.
Import ListNotations.
Local Open Scope string_scope.

Section Elo.
  Context {N : Num} (pow10 : N -> N).
  (** research/legacy_skatervaluation/battleutil/eloformulas.py:4-15  [elo_expected]; the quotient is computed anew in each test *)
  Definition elo_expected (d f : N) : res N :=
    q <- py_div d f ;;
    if nltb (nofZ 8) q then Ok n0
    else if nltb q (nofZ (-8)) then Ok n1
    else py_div n1 (nadd n1 (pow10 q)).
  (** research/legacy_skatervaluation/battleutil/eloformulas.py:18-30  [elo_change] *)
  Definition elo_change (white_elo black_elo points k f : N) : res (N * N) :=
    let d := nsub black_elo white_elo in
    expected_points <- elo_expected d f ;;
    let w := nsub points expected_points in
    Ok (nmul k w, nmul (nopp k) w).

  (** [key.split('>')], research/legacy_skatervaluation/battleutil/compilingeloratings.py:101, 123 *)
  Fixpoint split_gt (s : string) : list string :=
    match s with
    | EmptyString => [EmptyString]
    | String c s' =>
        if Ascii.eqb c ">" then EmptyString :: split_gt s'
        else match split_gt s' with x :: t => String c x :: t | [] => [String c EmptyString] end
    end.
  (** [d[k] = v] on a dict: an existing key keeps its place *)
  (** research/legacy_skatervaluation/battleutil/compilingeloratings.py:125-127 *)
  Fixpoint dput {A} (k : string) (v : A) (d : list (string * A)) : list (string * A) :=
    match d with [] => [(k, v)] | (k', v') :: d' => if String.eqb k k' then (k', v) :: d' else (k', v') :: dput k v d' end.
  (** [elo[c]] of a Counter: 0 when missing *)
  (** research/legacy_skatervaluation/battleutil/compilingeloratings.py:124-127 *)
  Definition cget (k : string) (d : list (string * N)) : N := match dget k d with Some v => v | None => n0 end.
  (** [l[i]] *)
  (** research/legacy_skatervaluation/battleutil/compilingeloratings.py:101 *)
  Definition at_index {A} (l : list A) (i : nat) : res A := match nth_error l i with Some a => Ok a | None => Err IndexError end.
  (** the contestants; Python's set has them in an unspecified order *)
  (** research/legacy_skatervaluation/battleutil/compilingeloratings.py:101 *)
  Definition contestants (ctn : list (string * Z)) : res (list string) :=
    heads <- mapM (fun b => at_index (split_gt (fst b)) 0) ctn ;;
    tails <- mapM (fun b => at_index (split_gt (fst b)) 1) ctn ;;
    Ok (nodup string_dec (heads ++ tails)%list).
  (** research/legacy_skatervaluation/battleutil/compilingeloratings.py:113 *)
  Definition remaining_battles (ctn : list (string * Z)) : list (string * Z) := filter (fun b => Z.leb 1 (snd b)) ctn.

  (** [random.choices(population, weights, k=1)[0]]: some index into the population *)
  (** research/legacy_skatervaluation/battleutil/compilingeloratings.py:121 *)
  Context {G : Type} (choices : list (string * Z) -> G -> nat * G) (k : N).
  (** the while loop; [left] is the number of battles it may still play (n_limit - n_count + 1), [ctn] and [elo] are updated in place *)
  (** research/legacy_skatervaluation/battleutil/compilingeloratings.py:109-127 *)
  Fixpoint elo_loop (left : nat) (ctn : list (string * Z)) (elo : list (string * N)) (g : G) : res (list (string * N) * list (string * Z) * G) :=
    match left with
    | O => Ok (elo, ctn, g)
    | S left' =>
        match remaining_battles ctn with
        | [] => Ok (elo, ctn, g)
        | rem =>
            let '(i, g') := choices rem g in
            b <- at_index rem i ;;
            match split_gt (fst b) with
            | [winner; loser] =>
                ch <- elo_change (cget winner elo) (cget loser elo) n1 k (nofZ 400) ;;
                let ctn' := dput (fst b) (snd b - 1)%Z ctn in
                let elo1 := dput winner (nadd (cget winner elo) (fst ch)) elo in
                let elo2 := dput loser (nadd (cget loser elo1) (snd ch)) elo1 in
                elo_loop left' ctn' elo2 g'
            | _ => Err ValueError
            end
        end
    end.
  (** [elo_from_win_counts(ctn, k=k)] with ELO_LIMIT = [limit] (50000 in the code); returns the ratings and what is left of the caller's counter *)
  (** research/legacy_skatervaluation/battleutil/compilingeloratings.py:81-134 *)
  Definition elo_from_win_counts (limit : nat) (ctn : list (string * Z)) (g : G) : res (list (string * N) * list (string * Z) * G) :=
    cs <- contestants ctn ;;
    elo_loop limit ctn (map (fun c => (c, nofZ 1500)) cs) g.

  (** The comparison of all pairs at the end of a round: [cmp_name] is counted for each i, j with i ahead of j by more than atol.
      [valid] holds (assessment, name) of the contestants that ran. *)
  (** research/legacy_skatervaluation/battleutil/arrangingbattles.py:112-119 *)
  Definition enumerate {A} (l : list A) : list (nat * A) := combine (seq 0 (length l)) l.
  (** research/legacy_skatervaluation/battleutil/arrangingbattles.py:112-119 *)
  Definition round_wins (valid : list (N * string)) (atol : N) : list string :=
    flat_map (fun im => flat_map (fun jm =>
      if negb (Nat.eqb (fst jm) (fst im)) && nltb (nadd (fst (snd jm)) atol) (fst (snd im))
      then [snd (snd im) ++ ">" ++ snd (snd jm)] else []) (enumerate valid)) (enumerate valid).
  (** [battles.update({cmp_name: 1.0})] *)
  (** research/legacy_skatervaluation/battleutil/arrangingbattles.py:119 *)
  Definition count_win (key : string) (battles : list (string * Z)) : list (string * Z) :=
    dput key (match dget key battles with Some c => (c + 1)%Z | None => 1%Z end) battles.
  (** research/legacy_skatervaluation/battleutil/arrangingbattles.py:112-119 *)
  Definition record_battles (valid : list (N * string)) (atol : N) (battles : list (string * Z)) : list (string * Z) :=
    fold_left (fun b key => count_win key b) (round_wins valid atol) battles.
  (** [Counter.update] with another counter: counts are added *)
  (** research/legacy_skatervaluation/battleutil/battleio.py:35-36 *)
  Definition counter_update (data new_data : list (string * Z)) : list (string * Z) :=
    fold_left (fun d e => dput (fst e) (snd e + match dget (fst e) d with Some c => c | None => 0 end)%Z d) new_data data.
  (** [load_win_data]: a file that is not JSON is skipped ([None]) *)
  (** research/legacy_skatervaluation/battleutil/battleio.py:30-41 *)
  Definition load_win_data (files : list (option (list (string * Z)))) : list (string * Z) :=
    fold_left (fun data file => match file with Some new_data => counter_update data new_data | None => data end) files [].
End Elo.

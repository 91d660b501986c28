(** * What a caller who never shares arrays sees, and which programs cannot tell the difference *)
From Coq Require Import Bool List.
From Verif Require Import Num Numpy PyVal LinalgModel BaseModel HeapModel.
Import ListNotations.

Section Value.
  Context {N : Num} (L : LinAlg N) (C : EstClass N).

  (** The caller's arrays are values of its own; [partial_fit] reads the value at the time of the call and a property
      returns a copy. *)
  Record vworld := mkV { v_held : list (option (ndarray N)); v_est : inst C }.
  Definition vheld (w : vworld) (h : nat) : option (ndarray N) := match nth_error (v_held w) h with Some (Some c) => Some c | _ => None end.
  Definition value_of (c : ndarray N) : input N := match c with A1 v => In1 v | A2 m => In2 m | A3 _ => InN 3 end.
  Definition v_got (w : vworld) (r : res (ndarray N)) : vworld * @shown N :=
    match r with
    | Ok c => (mkV (v_held w ++ [Some c]) (v_est w), Ok (Some c))
    | Err e => (mkV (v_held w ++ [None]) (v_est w), Err e)
    end.
  Definition v_after (w : vworld) (p : inst C * res unit) : vworld * @shown N :=
    match p with (o, r) => (mkV (v_held w) o, quiet r) end.
  Definition vstep (w : vworld) (c : @cmd N) : vworld * @shown N :=
    let o := v_est w in
    match c with
    | Alloc c => v_got w (Ok c)
    | Write h c =>
      match vheld w h with
      | Some d => if same_shape d c then (mkV (upd (v_held w) h (Some c)) o, Ok None) else (w, Err ValueError)
      | None => (w, Err IndexError)
      end
    | Look h => (w, match vheld w h with Some c => Ok (Some c) | None => Err IndexError end)
    | PartialFit X => v_after w (partial_fit o X)
    | PartialFitArr h => match vheld w h with Some c => v_after w (partial_fit o (value_of c)) | None => (w, Err IndexError) end
    | Fit X => v_after w (fit o X)
    | FitArr h => match vheld w h with Some c => v_after w (fit o (value_of c)) | None => (w, Err IndexError) end
    | Location => v_got w (v <- location_ o ;; Ok (A1 v))
    | Read k => v_got w (m <- read_prop L C k o ;; Ok (A2 m))
    | SetState j => match set_state o j with Ok o' => (mkV (v_held w) o', Ok None) | Err e => (w, Err e) end
    end.
  Fixpoint vexec (w : vworld) (prog : list (@cmd N)) : vworld * list (@shown N) :=
    match prog with
    | [] => (w, [])
    | c :: prog' => let '(w', r) := vstep w c in let '(w'', rs) := vexec w' prog' in (w'', r :: rs)
    end.
  Definition vstart (p : c_P C) : vworld := mkV [] (new p).

  (** A program writes only where it may: never into an array obtained from [location_] (when [location_is_shared]), and,
      when [diff] is set, never into an array it has already passed to [partial_fit] or [fit].
      [fz] has one entry per array held: whether it is off limits. *)
  Fixpoint polite (location_is_shared diff : bool) (fz : list bool) (prog : list (@cmd N)) : Prop :=
    match prog with
    | [] => True
    | Alloc _ :: r | Read _ :: r => polite location_is_shared diff (fz ++ [false]) r
    | Location :: r => polite location_is_shared diff (fz ++ [location_is_shared]) r
    | Write h _ :: r => nth h fz false = false /\ polite location_is_shared diff fz r
    | PartialFitArr h :: r | FitArr h :: r => polite location_is_shared diff (if diff then upd fz h true else fz) r
    | Look _ :: r | PartialFit _ :: r | Fit _ :: r | SetState _ :: r => polite location_is_shared diff fz r
    end.
End Value.

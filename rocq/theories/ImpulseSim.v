(** Impulse responses of a model in any state: the model's state (ModelState.v) joined to
    pynare/impulse.py:72-87 and pynare/core/model.py:242-265. *)
From Verif Require Import Base Syntax Eval Semantics Factory Indexing DynFunc Vars ModelState Nd Mat Linearize Steady SteadyValues FirstOrder SecondOrder Pipeline Sim PathSim.

Section ImpulseSim.
  Variable F : Type.
  Variable O : rops F.
  Variable P : ops F.
  Variable isnum : F -> bool.
  Variable nan : F.
  Variable minimize : solver -> (list F -> res F) -> list F -> res (list F).
  Variable chol : nat -> (nat -> nat -> F) -> res (nat -> nat -> F).
  Variable space : list (option F) -> steady_repr F -> repr F -> res (space_of F).
  Variable solver_ : option (rules F * matrix F) -> list (option F) -> steady_repr F -> repr F -> space_of F -> res (rules F).

  (** impulse.py:72-80: the shocks, from the names that the model has when it is asked. *)
  Definition impulse_shocks (names : list string) (exog : option key) (periods : nat) (size : F) : res (nd F) :=
    do idx <- match exog with None => Ok [0] | Some k => get_loc names k end;
    let k := List.length names in
    if (periods =? 0) || existsb (fun i => k <=? i) idx then Err IndexErr
    else Ok (M2 periods k (fun t j => if (t =? 0) && existsb (Nat.eqb j) idx then size else r0 O)).

  (** [paths - ss], row by row (impulse.py:85) *)
  Definition less (ss : list F) (paths : list (list F)) : list (list F) :=
    map (fun r => map (fun p => rsub O (fst p) (snd p)) (combine r ss)) paths.

  (** impulse.py:72-87.  The simulation has no order (83), and 200 periods unless shocks are
      given; [model.ss.values] (85) is read afterwards.  model.py:265 passes the arguments on. *)
  Definition whole_impulse (exog : option key) (periods : nat) (size : F) (m : mstate F (space_of F) (rules F))
      : mstate F (space_of F) (rules F) * res (list (list F)) :=
    match impulse_shocks (map sv_name (d_stoch F (definition _ _ _ m))) exog periods size with
    | Err e => (m, Err e)
    | Ok sh =>
        match whole_simulate F O P isnum nan minimize chol space solver_ 0 (Some sh) 200 (fun _ _ => r0 O) None m with
        | (m1, Err e) => (m1, Err e)
        | (m1, Ok paths) =>
            match read F P (r0 O) isnum (space_of F) (rules F) space RSteady m1 with
            | (m2, Err e) => (m2, Err e)
            | (m2, Ok _) =>
                let d := definition _ _ _ m2 in
                let c := derived _ _ _ m2 in
                (m2, do ss <- ss_values F O P nan minimize (map ev_init (d_endog F d)) (c_steady _ _ c) (c_dynamic _ _ c);
                     Ok (less ss paths))
            end
        end
    end.
End ImpulseSim.

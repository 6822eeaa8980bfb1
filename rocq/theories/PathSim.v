(** Simulations of a model in any state: the model's state (ModelState.v) joined to its
    simulator (Sim.v).  Model of pynare/simul.py:158-273, 312-356. *)
From Verif Require Import Base Syntax Eval Factory Indexing DynFunc Vars ModelState Nd Mat Linearize Steady SteadyValues FirstOrder SecondOrder Pipeline Sim.

Section PathSim.
  Variable F : Type.
  Variable O : rops F.
  Variable P : ops F.
  Variable isnum : F -> bool.
  Variable nan : F.
  Variable minimize : solver -> (list F -> res F) -> list F -> res (list F).
  Variable chol : nat -> (nat -> nat -> F) -> res (nat -> nat -> F).
  Variable space : list (option F) -> steady_repr F -> repr F -> res (space_of F).
  Variable solver_ : option (rules F * matrix F) -> list (option F) -> steady_repr F -> repr F -> space_of F -> res (rules F).

  (** simul.py:192, 229-233: the arrays that are read from the solution. *)
  Definition as_sim (s : rules F) : lsol F :=
    match s with
    | Pipeline.First gy gu => Sim.First gy gu
    | Pipeline.Second gy gu xx xu uu dl => Sim.Second gy gu xx xu uu dl
    end.

  (** simul.py:312-324: the solution, the update (154-156), the positions (163-172), then
      the shocks with the covariance matrix (341), the steady state (185, 222, 265), and the
      path.  Simplification: the steady state is computed once (it is the same each time), and
      before the factorisation.  The update has computed it already, so it cannot fail here. *)
  Definition whole_simulate (order : nat) (given : option (nd F)) (periods : nat) (noise : nat -> nat -> F) (init : option (nd F))
      (m : mstate F (space_of F) (rules F)) : mstate F (space_of F) (rules F) * res (list (list F)) :=
    match ModelState.simulate F P (r0 O) isnum (space_of F) (rules F) space solver_ order m with
    | (m1, Err e) => (m1, Err e)
    | (m1, Ok (s, _)) =>
        let x := c_index _ _ (derived _ _ _ m1) in
        match read F P (r0 O) isnum (space_of F) (rules F) space RSigma m1 with
        | (m2, Ok (VSigma sg)) =>
            let d := definition _ _ _ m2 in
            let c := derived _ _ _ m2 in
            (m2,
             do ss <- ss_values F O P nan minimize (map ev_init (d_endog F d)) (c_steady _ _ c) (c_dynamic _ _ c);
             Sim.simulate F O chol (SModel ss (dr_order x) (members is_state (dr x)) (map sv_name (d_stoch F d)) sg)
               (as_sim s) given periods noise init)
        | (m2, Ok _) => (m2, Err TypeErr)
        | (m2, Err e) => (m2, Err e)
        end
    end.
End PathSim.

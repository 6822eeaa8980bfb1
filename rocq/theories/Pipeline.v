(** From the definitions of a model to its solution: the numerical results that ModelState.v
    leaves open, with the models of the routines that compute them.  Model of
    pynare/core/solve/statespace.py:19-41, pynare/core/generic.py:188-202, 361-369,
    pynare/core/solve/first_order.py:19-102 and pynare/core/solve/second_order.py:22-34. *)
From Verif Require Import Base Syntax Eval Factory Indexing DynFunc Vars ModelState Nd Mat Linearize Steady SteadyValues FirstOrder SecondOrder.

(** What a solution holds: [gy], [gu] (first_order.py:21), and behind them ghxx, ghxu, ghuu
    and del2 (second_order.py:20; ghxx and ghuu are halved, 32). *)
Inductive rules (F : Type) := First (gy gu : nd F) | Second (gy gu ghxx ghxu ghuu del2 : nd F).
Arguments First {F} gy gu.
Arguments Second {F} gy gu ghxx ghxu ghuu del2.

(** What is kept of a state space: the steady state that the Jacobian is taken at, the
    Jacobian, and the matrices. *)
Record space_of (F : Type) := SpaceOf { sp_ss : list F; sp_jac : nd F; sp_state : state F }.
Arguments SpaceOf {F} sp_ss sp_jac sp_state.
Arguments sp_ss {F} s. Arguments sp_jac {F} s. Arguments sp_state {F} s.

Section Pipeline.
  Variable F : Type.
  Variable O : rops F.
  Variable P : ops F.
  Variable ltb eqb : F -> F -> bool.
  (** [float('nan')] *)
  Variable nan : F.
  Variable minimize : solver -> (list F -> res F) -> list F -> res (list F).
  Variable grad : (list F -> res F) -> list F -> res (list F).
  Variable jacobian : (list F -> res (list F)) -> list F -> res (list (list F)).
  Variable qr : nat -> nat -> mat F -> res (mat F * mat F).
  Variable rank : nat -> nat -> mat F -> nat.
  Variable ordqz : nat -> mat F -> mat F -> res (schur F).
  Variable inv : nat -> mat F -> res (mat F).
  Variable qz : nat -> mat F -> mat F -> res (mat F * mat F * mat F * mat F).
  Variable solve : nat -> nat -> mat F -> mat F -> res (mat F).

  (** generic.py:202: an array of floats; [None] becomes nan. *)
  Definition initial_values (is : list (option F)) : list F :=
    map (fun v => match v with Some x => x | None => nan end) is.

  (** generic.py:188-194, steady.py:69-73: computed anew for every reading, with the method
      [None]; models are made for the language dynare (generic.py:43-47).  The equations are those of the steady-state representation; the index is not
      looked at. *)
  Definition ss_values (is : list (option F)) (st : steady_repr F) (dy : repr F) : res (list F) :=
    steady_values F O P minimize "dynare" (Other (Ok false))
      (Repr F (s_endog F st) (r_stoch F dy) (s_exprs F st) (s_params F st) (r_index F dy)) (initial_values is).

  (** statespace.py:19-41 with linearizing.py:36-63 and expressions.py:207-209 (the Jacobian is
      kept with the representation). *)
  Definition whole_space (is : list (option F)) (st : steady_repr F) (dy : repr F) : res (space_of F) :=
    do ss <- ss_values is st dy;
    do A <- model_jacobian F P (r0 O) grad dy ss;
    do s <- state_space F O ltb qr rank ordqz (r_index F dy) A;
    Ok (SpaceOf ss A s).

  (** first_order.py:19-102; second_order.py:22-34, 95-205.  The Hessian (expressions.py:211-213)
      is taken at a steady state computed for it.  A second-order solution is made from a
      first-order one (second_order.py:25). *)
  Definition whole_solver (lower : option (rules F * matrix F)) (is : list (option F)) (st : steady_repr F) (dy : repr F) (sp : space_of F)
    : res (rules F) :=
    match lower with
    | None => do g <- solve_first_order F O inv solve (r_index F dy) (sp_state sp); Ok (First (fst g) (snd g))
    | Some (First gy gu, sigma) =>
        do ss <- ss_values is st dy;
        do B <- model_hessian F P (r0 O) grad jacobian dy ss;
        do t <- solve_second_order F O eqb qz solve nan (r_index F dy) gy gu (sp_jac sp) B
                  (M2 (List.length (r_stoch F dy)) (List.length (r_stoch F dy)) sigma);
        let '(xx, xu, uu, dl) := t in Ok (Second gy gu xx xu uu dl)
    | Some (Second _ _ _ _ _ _, _) => Err TypeErr
    end.
End Pipeline.

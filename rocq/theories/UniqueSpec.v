(** What it means that a path solves the equations of a model to first order. *)
From Verif Require Import Base Syntax Eval Nd SimSpec CalcSpec AccuracySpec.

Section UniqueSpec.
  Variable F : Type.
  Variable O : rops F.
  Variable le : F -> F -> Prop.
  Variable P : ops F.
  Variable endog stoch : list string.
  Variable params : list (string * F).

  (** The equation [e] holds to first order around the steady state [ss] when the variables
      deviate from it by [lag] last period, [now] this period and [next] in the next one, and
      the shocks are [u]: when all are multiplied by [t] the equation has a value, which,
      divided by [t], goes to zero with [t]. *)
  Definition holds_to_first_order (ss : list F) (lag now next u : nat -> F) (e : ast F) : Prop :=
    exists r : F -> F,
      near F O le (fun t => equation_value F P endog stoch params
        (level F O ss (fun v => rmul O t (lag v))) (level F O ss (fun v => rmul O t (now v))) (level F O ss (fun v => rmul O t (next v)))
        (fun l => rmul O t (u l)) e (r t)) /\
      small1 F O le r.

  (** A path [y], of deviations from the steady state, along which every equation holds to
      first order, after the deviations [lag] and the shocks [u] of the first period, no
      shocks being expected later. *)
  Definition path_holds (exprs : list (ast F)) (ss : list F) (lag u : nat -> F) (y : nat -> nat -> F) : Prop :=
    Forall (fun e => holds_to_first_order ss lag (y 0) (y 1) u e /\
      forall t, holds_to_first_order ss (y t) (y (S t)) (y (S (S t))) (fun _ => r0 O) e) exprs.
End UniqueSpec.
